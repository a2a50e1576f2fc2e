(** FloatJac: the numerical Jacobian of a row-wise model in binary64, and how far it is off. *)
From Coq Require Import Reals.
From Flocq Require Import Core.
From Flocq Require Import IEEE754.BinarySingleNaN.
From Verif Require Import Base Numpy FloatModel FloatFacts FloatGrid FloatBins FloatProofs.
From Coq Require Import Lra.
Open Scope R_scope.

Lemma map_combine_self {A B C} (h : B -> B -> C) (a b : A -> B) l :
  map (fun p => h (fst p) (snd p)) (combine (map a l) (map b l)) = map (fun x => h (a x) (b x)) l.
Proof. induction l as [|x l IH]; [reflexivity|]. cbn. now rewrite IH. Qed.

Lemma jacobian64_rows g dim X eps :
  compute_jacobian64 (map g) dim X eps =
    Ok (map (fun r => map (fun f => fdiv (fsub (g (list_updn r f (fun v => fadd v eps))) (g r)) eps) (seq 0 dim)) X).
Proof.
  unfold compute_jacobian64.
  rewrite (mapM_ok _ (fun f => map (fun r => fdiv (fsub (g (list_updn r f (fun v => fadd v eps))) (g r)) eps) X)).
  2:{ intros f _. unfold vzip. rewrite !map_length, Nat.eqb_refl. cbn [bind]. cbv zeta. rewrite map_map.
      rewrite (map_map (fun r => list_updn r f (fun v => fadd v eps)) g).
      rewrite (map_combine_self (fun a b => fdiv (fsub a b) eps) (fun r => g (list_updn r f (fun v => fadd v eps))) g).
      now rewrite map_length, Nat.eqb_refl. }
  cbn [bind]. f_equal. apply (nth_ext _ _ [] []); [now rewrite !map_length, seq_length|]. intros i Hi. rewrite map_length, seq_length in Hi.
  rewrite (nth_indep _ [] ((fun i => map (fun c => nth i c fnan) (map (fun f => map (fun r => fdiv (fsub (g (list_updn r f (fun v => fadd v eps))) (g r)) eps) X) (seq 0 dim))) 0%nat)) by (now rewrite map_length, seq_length).
  rewrite (map_nth (fun i => map (fun c => nth i c fnan) (map (fun f => map (fun r => fdiv (fsub (g (list_updn r f (fun v => fadd v eps))) (g r)) eps) X) (seq 0 dim)))), seq_nth by lia.
  cbn [Nat.add]. rewrite map_map.
  rewrite (nth_indep _ [] ((fun r => map (fun f => fdiv (fsub (g (list_updn r f (fun v => fadd v eps))) (g r)) eps) (seq 0 dim)) [])) by (now rewrite map_length).
  rewrite (map_nth (fun r => map (fun f => fdiv (fsub (g (list_updn r f (fun v => fadd v eps))) (g r)) eps) (seq 0 dim))).
  apply map_ext_in. intros f _.
  rewrite (nth_indep _ fnan ((fun r => fdiv (fsub (g (list_updn r f (fun v => fadd v eps))) (g r)) eps) [])) by (now rewrite map_length).
  now rewrite (map_nth (fun r => fdiv (fsub (g (list_updn r f (fun v => fadd v eps))) (g r)) eps)).
Qed.

Lemma slope_of_identity x e : fin x -> (0 <= e <= 26)%Z -> Rabs (val x) <= bpow radix2 e ->
  Rabs (val (fdiv (fsub (fadd x EPS64) x) EPS64) - 1) <= bpow radix2 (e - 25).
Proof.
  intros Fx He H. pose proof EPS64_bounds as [P1 P2]. pose proof (bpow_gt_0 radix2 (-27)) as P27. set (h := val EPS64) in *.
  assert (Big : forall k, (k <= 1021)%Z -> bpow radix2 k <= bpow radix2 1021) by (intros; now apply bpow_le).
  pose proof (Big e ltac:(lia)) as Be. pose proof (Big (-26)%Z ltac:(lia)) as B26. pose proof (Big 1%Z ltac:(lia)) as B1. pose proof bpow23 as B23. change (bpow radix2 1) with 2 in B1.
  destruct (fadd_val x EPS64 Fx EPS64_fin) as [E1 F1].
  { fold h. eapply Rle_trans; [apply Rabs_triang|]. rewrite (Rabs_pos_eq h) by lra. lra. }
  fold h in E1.
  (* the rounded abscissa *)
  assert (D : Rabs (val (fadd x EPS64) - (val x + h)) <= bpow radix2 (e - 53)).
  { rewrite E1. eapply Rle_trans; [apply error_le_half_ulp; typeclasses eauto|].
    assert (T : Rabs (val x + h) < bpow radix2 (e + 1)).
    { eapply Rle_lt_trans; [apply Rabs_triang|]. rewrite (Rabs_pos_eq h) by lra. rewrite bpow_plus. change (bpow radix2 1) with 2.
      assert (bpow radix2 (-26) < bpow radix2 e) by (apply bpow_lt; lia). lra. }
    assert (U : ulp radix2 fexp64 (val x + h) <= bpow radix2 (e + 1 - 53)).
    { destruct (Req_dec (val x + h) 0) as [Z|NZ].
      - rewrite Z. change fexp64 with (FLT_exp (-1074) 53). rewrite (ulp_FLT_0 radix2 (-1074) 53). apply bpow_le. lia.
      - rewrite ulp_neq_0 by exact NZ. apply bpow_le. unfold cexp. rewrite fexp64_eq.
        pose proof (mag_le_bpow radix2 (val x + h) (e + 1) NZ T). lia. }
    replace (e + 1 - 53)%Z with (1 + (e - 53))%Z in U by lia. rewrite bpow_plus in U. change (bpow radix2 1) with 2 in U. lra. }
  set (d := val (fadd x EPS64) - (val x + h)) in *.
  assert (Ed : val (fadd x EPS64) - val x = h + d) by (unfold d; ring).
  assert (Dm : bpow radix2 (e - 53) <= bpow radix2 (-27)) by (apply bpow_le; lia).
  assert (DD : - bpow radix2 (e - 53) <= d <= bpow radix2 (e - 53)) by (apply Rabs_le_inv; exact D).
  assert (HP : 0 < h + d) by lra.
  assert (H2 : h + d < 2 * bpow radix2 (-26)). { assert (bpow radix2 (-27) <= bpow radix2 (-26)) by (apply bpow_le; lia). lra. }
  destruct (fsub_val (fadd x EPS64) x F1 Fx) as [E2 F2].
  { rewrite Ed, Rabs_pos_eq by lra. lra. }
  destruct (rnd_minus_rel (fadd x EPS64) x) as (e1 & A1 & R1). rewrite R1, Ed in E2.
  set (s := fsub (fadd x EPS64) x) in *. pose proof u53_small as US. pose proof u53_pos as UP. apply Rabs_le_inv in A1.
  assert (HS : (h + d) * (1 + e1) / h = (1 + d / h) * (1 + e1)) by (field; lra).
  (* d/h *)
  assert (HH : - bpow radix2 (e - 26) <= d / h <= bpow radix2 (e - 26)).
  { assert (Q : bpow radix2 (e - 53) <= bpow radix2 (e - 26) * h).
    { replace (e - 53)%Z with (e - 26 + -27)%Z by lia. rewrite bpow_plus. apply Rmult_le_compat_l; [apply bpow_ge_0|lra]. }
    split; [apply Rle_div_r|apply Rle_div_l]; lra. }
  set (w := d / h) in *.
  assert (W0 : bpow radix2 (e - 26) <= 1) by (change 1 with (bpow radix2 0); apply bpow_le; lia).
  assert (WP : 0 < 1 + w). { assert (1 + w = (h + d) / h) by (unfold w; field; lra). rewrite H0. apply Rdiv_lt_0_compat; lra. }
  (* s is not below 2^-100 *)
  assert (SB : bpow radix2 (-100) <= (1 + w) * (1 + e1)).
  { assert (G : bpow radix2 (-100) * 2 <= 1 + w).
    { assert (Z1 : 1 + w = (h + d) / h) by (unfold w; field; lra). rewrite Z1. apply Rle_div_r; [lra|].
      assert (h - bpow radix2 (-27) >= bpow radix2 (-99)).
      { unfold h. rewrite EPS64_val. unfold bpow. cbn. lra. }
      assert (bpow radix2 (-99) = 2 * bpow radix2 (-100)) by (change (-99)%Z with (1 + -100)%Z; rewrite bpow_plus; reflexivity).
      assert (h <= 1). { assert (bpow radix2 (-26) <= bpow radix2 0) by (apply bpow_le; lia). change (bpow radix2 0) with 1 in *. lra. }
      pose proof (bpow_gt_0 radix2 (-100)). nra. }
    pose proof (bpow_gt_0 radix2 (-100)). nra. }
  destruct (fdiv_val s EPS64 F2 EPS64_fin) as [E3 F3].
  { fold h. lra. }
  { fold h. rewrite E2, HS. assert (0 < (1 + w) * (1 + e1)) by (pose proof (bpow_gt_0 radix2 (-100)); lra).
    rewrite Rabs_pos_eq by lra. apply Rle_trans with 4; [nra|lra]. }
  fold h in E3. rewrite E2, HS in E3.
  destruct (rnd_rel ((1 + w) * (1 + e1))) as (e2 & A2 & R2).
  { assert (0 < (1 + w) * (1 + e1)) by (pose proof (bpow_gt_0 radix2 (-100)); lra). rewrite Rabs_pos_eq by lra.
    apply Rle_trans with (bpow radix2 (-100)); [apply bpow_le; lia|exact SB]. }
  rewrite R2 in E3. rewrite E3. apply Rabs_le_inv in A2.
  replace ((1 + w) * (1 + e1) * (1 + e2) - 1) with (w + (1 + w) * (e1 + e2 + e1 * e2)) by ring.
  assert (T : - (3 * u53) <= e1 + e2 + e1 * e2 <= 3 * u53) by (clear - A1 A2 US UP; split; nra).
  assert (T2 : Rabs ((1 + w) * (e1 + e2 + e1 * e2)) <= 2 * (3 * u53)).
  { rewrite Rabs_mult. apply Rmult_le_compat; try apply Rabs_pos; [rewrite Rabs_pos_eq; lra|apply Rabs_le; lra]. }
  eapply Rle_trans; [apply Rabs_triang|].
  assert (T3 : Rabs w <= bpow radix2 (e - 26)) by (apply Rabs_le; lra).
  assert (T4 : 6 * u53 <= bpow radix2 (e - 26)).
  { apply Rle_trans with (bpow radix2 (-26)); [|apply bpow_le; lia]. unfold bpow. cbn. lra. }
  replace (e - 25)%Z with (1 + (e - 26))%Z by lia. rewrite bpow_plus. change (bpow radix2 1) with 2. lra.
Qed.
