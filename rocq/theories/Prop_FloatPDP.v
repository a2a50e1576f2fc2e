(** Prop_FloatPDP: C115 - C117, PDP and d-PDP objects in binary64. FloatPDP.v is the model, FloatPDPSpec.v says what the
    results are compared with. [p] is an object and a feature; [sized p]: at least one instance between the limits, at most
    2^40 instances and centering points, averages that add every number once (in any fixed order). [tame_at p M x]: at
    position x the model returns finite numbers of absolute value at most M. *)
From Coq Require Import Reals Permutation.
From Flocq Require Import Core.
From Flocq Require Import IEEE754.BinarySingleNaN.
From Verif Require Import Base Numpy NumpyFacts FloatModel FloatFacts FloatGrid FloatMean FloatAcc FloatVar FloatDer FloatPDP FloatPDPSpec FloatPDPMean FloatPDPStd FloatPDPProofs FloatPDPMore Prop_FloatMid.
From Coq Require Import Lra.
Open Scope R_scope.

(** ** C115 *)
(** [moved r f x r']: the row r with its value of feature f replaced by x *)
Definition moved (r : list b64) (f : nat) (x : b64) (r' : list b64) : Prop :=
  length r' = length r /\ nth f r' fnan = x /\ forall i, i <> f -> nth i r' fnan = nth i r fnan.
(** The ICE value of an instance at a position: the model's output on the moved row (PDP), the entry of its Jacobian that belongs to
    the feature, or the quotient of the outputs 1e-6 above and below (DerPDP); the instances averaged are those between the limits. *)
Theorem C115_ice f r x : (f < length r)%nat ->
  exists r' up down, moved r f x r' /\ moved r f (fadd x H64) up /\ moved r f (fsub x H64) down /\
    val H64 = rnd (1 / 1000000) /\ val HH64 = 2 * val H64 /\
    (forall g, ice64 (Outputs g) f r x = g r') /\ (forall J, ice64 (Jacobian J) f r x = nth f (J r') fnan) /\
    (forall g, ice64 (Differences g) f r x = fdiv (fsub (g up) (g down)) HH64).
Proof.
  intros Hf. exists (list_set r f x), (list_set r f (fadd x H64)), (list_set r f (fsub x H64)).
  assert (MV : forall y, moved r f y (list_set r f y)). { intros y. split; [apply list_set_length|]. split; [now apply list_set_nth_same|]. intros i Hi. apply list_set_nth_other; auto. }
  repeat split; try apply MV; try (intros i Hi; now apply MV); [exact H64_nearest|apply HH64_val].
Qed.
Theorem C115_kept p r : fin (p64_lo p) -> fin (p64_hi p) -> fin (nth (p64_feature p) r fnan) ->
  In r (kept64 p) <-> In r (p64_rows p) /\ val (p64_lo p) <= val (nth (p64_feature p) r fnan) <= val (p64_hi p).
Proof.
  intros F1 F2 F. unfold kept64. rewrite filter_In. unfold in_range64. rewrite andb_true_iff, !fle_val by assumption. tauto.
Qed.
(** eval succeeds exactly when the limits are in order, with one mean and one standard deviation per position *)
Theorem C115_shape p c xs :
  (Bltb (p64_lo p) (p64_hi p) = false -> pdp_eval64 p c xs = Raise AssertionError) /\
  (Bltb (p64_lo p) (p64_hi p) = true -> exists ys ss, pdp_eval64 p c xs = Ok (ys, ss) /\ length ys = length xs /\ length ss = length xs).
Proof.
  unfold pdp_eval64. destruct (Bltb (p64_lo p) (p64_hi p)); cbn [assert_ bind]; split; intros E; try discriminate; [|reflexivity].
  do 2 eexists. split; [reflexivity|]. rewrite !map_length, centered_entries, map_length. auto.
Qed.

(** The reported mean and heterogeneity are finite, the heterogeneity is not negative, and they are within the stated bounds
    of the exact mean and standard deviation of the exactly centered ICE values. *)
Theorem C115_accuracy p c xs ys ss M t :
  sized p -> 0 <= M <= bpow radix2 380 -> pdp_eval64 p c xs = Ok (ys, ss) -> (t < length xs)%nat ->
  (forall b, b = nth t xs fnan \/ In b (base_points p c) -> tame_at p M b) ->
  fin (nth t ys fnan) /\ Rabs (val (nth t ys fnan) - exact_mean p c (nth t xs fnan)) <= mean_bound p M /\
  fin (nth t ss fnan) /\ 0 <= val (nth t ss fnan) /\ Rabs (val (nth t ss fnan) - exact_sd p c (nth t xs fnan)) <= sd_bound p M.
Proof.
  intros (C0 & C1 & KL & PL) HM E Ht T. destruct (eval_entries p c xs ys ss E) as (_ & _ & _ & EE). destruct (EE t Ht) as [-> ->].
  apply eval_close; auto.
Qed.
(** the roundings in a row are fewer than the numbers averaged *)
Theorem C115_chains p : sized p -> (1 <= d1 p <= length (kept64 p))%nat /\ (1 <= d0 p <= p64_points p)%nat.
Proof.
  intros (C0 & C1 & KL & PL). pose proof (complete_steps _ (length (kept64 p)) C1 (small_len_pos _ KL)). pose proof (complete_steps _ (p64_points p) C0 ltac:(lia)). unfold d0, d1. lia.
Qed.

(** zero_start: at the lower limit the curve is exactly 0 and so is the heterogeneity *)
Theorem C115_start p xs ys ss t :
  sized p -> pdp_eval64 p ZeroStart xs = Ok (ys, ss) -> (t < length xs)%nat -> nth t xs fnan = p64_lo p ->
  (forall r, In r (kept64 p) -> fin (ice64 (p64_target p) (p64_feature p) r (p64_lo p))) ->
  fin (nth t ys fnan) /\ val (nth t ys fnan) = 0 /\ fin (nth t ss fnan) /\ val (nth t ss fnan) = 0.
Proof.
  intros SZ E Ht EL F. pose proof SZ as (C0 & C1 & KL & PL). destruct (eval_entries p ZeroStart xs ys ss E) as (_ & _ & _ & EE). destruct (EE t Ht) as [-> ->]. rewrite EL.
  assert (Z : zeros (map (fun r => entry64 p ZeroStart r (p64_lo p)) (kept64 p))).
  { intros y Hy. apply in_map_iff in Hy as (r & <- & Hr). cbn [entry64]. apply fsub_same; auto. }
  destruct (mean_zero _ _ C1 (kept_small p SZ _) Z). destruct (std_zero _ _ C1 (kept_small p SZ _) Z). auto.
Qed.

(** zero_integral: the values reported at the centering points average to zero up to rounding *)
Theorem C115_integral p ys ss M :
  sized p -> 0 <= M <= bpow radix2 380 -> pdp_eval64 p ZeroIntegral (grid64 p) = Ok (ys, ss) -> (forall b, In b (grid64 p) -> tame_at p M b) ->
  Rabs (Ravg (map val ys)) <= mean_bound p M.
Proof.
  intros SZ HM E T. pose proof SZ as (C0 & C1 & KL & PL). destruct (eval_entries p ZeroIntegral _ ys ss E) as (_ & Ly & _ & EE).
  assert (EY : ys = map (fun x => mean64 (p64_axis1 p) (map (fun r => entry64 p ZeroIntegral r x) (kept64 p))) (grid64 p)).
  { apply nth_ext with (d := fnan) (d' := mean64 (p64_axis1 p) (map (fun r => entry64 p ZeroIntegral r fnan) (kept64 p))); [now rewrite map_length|].
    intros t Ht. rewrite Ly in Ht. rewrite (map_nth (fun x => mean64 (p64_axis1 p) (map (fun r => entry64 p ZeroIntegral r x) (kept64 p)))). now apply EE. }
  rewrite EY, map_map. pose proof (Ravg_close (fun x => val (mean64 (p64_axis1 p) (map (fun r => entry64 p ZeroIntegral r x) (kept64 p)))) (exact_mean p ZeroIntegral) (grid64 p) (mean_bound p M) (proj1 (grid_small p PL))) as AC.
  assert (Z : Ravg (map (exact_mean p ZeroIntegral) (grid64 p)) = 0) by (unfold Ravg; rewrite (integral_zero p KL PL); unfold Rdiv; ring).
  rewrite Z, Rminus_0_r in AC. apply AC. intros x Hx. apply (eval_close p C0 C1 KL PL ZeroIntegral M x); auto.
Qed.

(** ** C116 *)
(** Whenever every ICE value at one position is at most the one at another position, so are the reported means, exactly:
    rounding never makes the PDP of non-decreasing ICE curves go down. Any centering. *)
Theorem C116_monotone p c xs ys ss M t t' :
  sized p -> 0 <= M <= bpow radix2 380 -> pdp_eval64 p c xs = Ok (ys, ss) -> (t < length xs)%nat -> (t' < length xs)%nat ->
  (forall b, b = nth t xs fnan \/ b = nth t' xs fnan \/ In b (base_points p c) -> tame_at p M b) ->
  (forall r, In r (kept64 p) -> Bleb (ice64 (p64_target p) (p64_feature p) r (nth t xs fnan)) (ice64 (p64_target p) (p64_feature p) r (nth t' xs fnan)) = true) ->
  Bleb (nth t ys fnan) (nth t' ys fnan) = true.
Proof.
  intros SZ HM E Ht Ht' T L. pose proof SZ as (C0 & C1 & KL & PL). destruct (eval_entries p c xs ys ss E) as (_ & _ & _ & EE). destruct (EE t Ht) as [E1 _]. destruct (EE t' Ht') as [E2 _]. rewrite E1, E2.
  assert (T1 : tame_at p M (nth t xs fnan)) by auto. assert (T2 : tame_at p M (nth t' xs fnan)) by auto.
  apply fle_val.
  - apply (eval_close p C0 C1 KL PL c M (nth t xs fnan)); auto.
  - apply (eval_close p C0 C1 KL PL c M (nth t' xs fnan)); auto.
  - apply curve_mono with (M := M); auto. intros r Hr. apply fle_val; [now apply T1|now apply T2|now apply L].
Qed.

(** Flipping the sign of the model flips the reported curve exactly and leaves the reported heterogeneity the same, bit for bit *)
Theorem C116_sign p g c xs ys ss ys' ss' M t :
  sized p -> 0 <= M <= bpow radix2 380 -> p64_target p = Outputs g ->
  let p' := mk_pdp64 (Outputs (fun r => Bopp (g r))) (p64_rows p) (p64_feature p) (p64_lo p) (p64_hi p) (p64_points p) (p64_axis0 p) (p64_axis1 p) in
  pdp_eval64 p c xs = Ok (ys, ss) -> pdp_eval64 p' c xs = Ok (ys', ss') -> (t < length xs)%nat ->
  (forall b, b = nth t xs fnan \/ In b (base_points p c) -> tame_at p M b) ->
  fin (nth t ys' fnan) /\ val (nth t ys' fnan) = - val (nth t ys fnan) /\ nth t ss' fnan = nth t ss fnan.
Proof.
  intros SZ HM ET p' E E' Ht T. destruct (eval_entries p c xs ys ss E) as (_ & _ & _ & EE). destruct (eval_entries p' c xs ys' ss' E') as (_ & _ & _ & EE').
  destruct (EE t Ht) as [-> ->]. destruct (EE' t Ht) as [-> ->].
  assert (O : forall b, tame_at p M b -> opposite_at p p' b).
  { intros b Tb r Hr. destruct (Tb r Hr) as [F _]. cbn [p' p64_target p64_feature ice64]. rewrite ET in F |- *. cbn [ice64] in F |- *. split; [unfold fin; now rewrite is_finite_Bopp|apply B2R_Bopp]. }
  destruct (curve_opp p SZ M HM p' ltac:(repeat split) c (nth t xs fnan)) as (E1 & F1 & E2); auto.
Qed.

(** ** C117 *)
(** A feature the model does not use (or a position at which it makes no difference): with zero_start centering the effect
    and the heterogeneity are exactly 0. *)
Theorem C117_unused p xs ys ss t :
  sized p -> pdp_eval64 p ZeroStart xs = Ok (ys, ss) -> (t < length xs)%nat ->
  (forall r, In r (kept64 p) -> let v := ice64 (p64_target p) (p64_feature p) r in fin (v (p64_lo p)) /\ fin (v (nth t xs fnan)) /\ val (v (nth t xs fnan)) = val (v (p64_lo p))) ->
  fin (nth t ys fnan) /\ val (nth t ys fnan) = 0 /\ fin (nth t ss fnan) /\ val (nth t ss fnan) = 0.
Proof.
  intros SZ E Ht F. pose proof SZ as (C0 & C1 & KL & PL). destruct (eval_entries p ZeroStart xs ys ss E) as (_ & _ & _ & EE). destruct (EE t Ht) as [-> ->].
  assert (Z : zeros (map (fun r => entry64 p ZeroStart r (nth t xs fnan)) (kept64 p))).
  { intros y Hy. apply in_map_iff in Hy as (r & <- & Hr). cbn [entry64]. destruct (F r Hr) as (F1 & F2 & EV). apply fsub_same; auto. }
  destruct (mean_zero _ _ C1 (kept_small p SZ _) Z). destruct (std_zero _ _ C1 (kept_small p SZ _) Z). auto.
Qed.

(** A model that is additive in the feature up to delta (delta: its own rounding errors): once centered, the reported curve is
    the component a minus its level, within 2 delta plus the rounding of the averages, and the reported heterogeneity is at
    most 2 delta plus the rounding of the averages. *)
Theorem C117_additive_partial p c xs ys ss M t a b delta :
  sized p -> 0 <= M <= bpow radix2 380 -> c <> NoCentering -> 0 <= delta -> pdp_eval64 p c xs = Ok (ys, ss) -> (t < length xs)%nat ->
  (forall y, y = nth t xs fnan \/ In y (base_points p c) -> tame_at p M y) ->
  (forall r y, In r (kept64 p) -> y = nth t xs fnan \/ In y (base_points p c) -> Rabs (val (ice64 (p64_target p) (p64_feature p) r y) - (a y + b r)) <= delta) ->
  let start := match c with ZeroStart => a (p64_lo p) | _ => Ravg (map a (grid64 p)) end in
  Rabs (val (nth t ys fnan) - (a (nth t xs fnan) - start)) <= 2 * delta + mean_bound p M /\
  0 <= val (nth t ss fnan) <= 2 * delta + sd_bound p M.
Proof.
  intros SZ HM NC D E Ht T AD start. destruct (C115_accuracy p c xs ys ss M t SZ HM E Ht T) as (_ & E1 & _ & S0 & E2).
  destruct (additive_exact p SZ a b delta c (nth t xs fnan) NC D AD) as [A1 A2].
  assert (ES : start_of p a c = start) by (unfold start; destruct c; [congruence|reflexivity|reflexivity]). rewrite ES in A1.
  apply Rabs_le_inv in E1. apply Rabs_le_inv in E2. apply Rabs_le_inv in A1. split; [apply Rabs_le|]; lra.
Qed.

(** the order numpy uses for fewer than eight numbers and along axis 0: one after the other *)
Fixpoint one_by_one (n : nat) : order := match n with S (S _ as m) => Add (one_by_one m) (At m) | _ => At 0 end.
Lemma one_by_one_places n : places (one_by_one (S n)) = seq 0 (S n).
Proof. induction n as [|n IH]; [reflexivity|]. change (places (one_by_one (S (S n)))) with (places (one_by_one (S n)) ++ [S n]). rewrite IH. now rewrite <- seq_S. Qed.
Lemma one_by_one_complete : complete one_by_one.
Proof. intros [|n] H; [lia|]. rewrite one_by_one_places. apply Permutation_refl. Qed.

Definition tenth : b64 := fdiv (fofZ 1) (fofZ 10).
(** three instances, a model that always returns 0.1 *)
Definition p3 : pdp64 := mk_pdp64 (Outputs (fun _ => tenth)) [[fzero; fzero]; [fofZ 1; fzero]; [fofZ 2; fzero]] 0 fzero (fofZ 2) 100 one_by_one one_by_one.
Lemma p3_kept : kept64 p3 = p64_rows p3. Proof. reflexivity. Qed.
Lemma p3_sized : sized p3.
Proof. split; [exact one_by_one_complete|]. split; [exact one_by_one_complete|]. split; [split; [rewrite p3_kept; discriminate|rewrite p3_kept; cbn; lia]|cbn; lia]. Qed.

(** Exactly zero is false: for the model that always returns 0.1 the uncentered mean is above every output the model gave
    and the heterogeneity is positive, and with zero_integral centering the curve is not 0. *)
Theorem C117_refuted :
  exists y s y' s', pdp_eval64 p3 NoCentering [fofZ 1] = Ok ([y], [s]) /\ Bltb tenth y = true /\ Bltb fzero s = true /\
  pdp_eval64 p3 ZeroIntegral [fofZ 1] = Ok ([y'], [s']) /\ Bltb fzero y' = true.
Proof.
  do 4 eexists. split; [reflexivity|]. split; [vm_compute; reflexivity|]. split; [vm_compute; reflexivity|]. split; [reflexivity|]. vm_compute. reflexivity.
Qed.

Print Assumptions C115_ice. Print Assumptions C115_kept. Print Assumptions C115_accuracy. Print Assumptions C115_start. Print Assumptions C115_integral. Print Assumptions C116_monotone. Print Assumptions C116_sign. Print Assumptions C117_unused. Print Assumptions C117_additive_partial. Print Assumptions C117_refuted.

(** ** the hypotheses are met by a model that is not trivial: x0 + 2 x1 on three instances, 100 centering points *)
Definition g3 (r : list b64) : b64 := fadd (nth 0 r fnan) (fmul (fofZ 2) (nth 1 r fnan)).
Definition q3 : pdp64 := mk_pdp64 (Outputs g3) [[fzero; fofZ 5]; [fofZ 1; fofZ 3]; [fofZ 2; tenth]] 0 fzero (fofZ 2) 100 one_by_one one_by_one.
Lemma q3_kept : kept64 q3 = p64_rows q3. Proof. reflexivity. Qed.
Lemma q3_sized : sized q3.
Proof. split; [exact one_by_one_complete|]. split; [exact one_by_one_complete|]. split; [split; [rewrite q3_kept; discriminate|rewrite q3_kept; cbn; lia]|cbn; lia]. Qed.
(** [checked lo hi x]: a boolean version of "finite and between lo and hi" *)
Definition checked (x : b64) : bool := is_finite x && Bleb (fofZ (-16)) x && Bleb x (fofZ 16).
Lemma checked_ok x : checked x = true -> fin x /\ Rabs (val x) <= 16.
Proof.
  unfold checked. intros H. apply andb_true_iff in H as [H H2]. apply andb_true_iff in H as [F H1]. split; [exact F|].
  destruct (fofZ_val 16 ltac:(lia)) as [V1 F1]. destruct (fofZ_val (-16) ltac:(lia)) as [V2 F2]. apply fle_val in H1; auto. apply fle_val in H2; auto. rewrite V1 in H2. rewrite V2 in H1. apply Rabs_le. lra.
Qed.
Lemma q3_tame b : forallb (fun r => checked (g3 (list_set r 0 b))) (p64_rows q3) = true -> tame_at q3 16 b.
Proof. intros H r Hr. rewrite q3_kept in Hr. cbn [q3 p64_target p64_feature ice64]. apply checked_ok. rewrite forallb_forall in H. now apply H. Qed.
Example q3_meets : sized q3 /\ 0 <= 16 <= bpow radix2 380 /\ (exists ys ss, pdp_eval64 q3 ZeroIntegral (grid64 q3) = Ok (ys, ss)) /\ (forall b, In b (grid64 q3) -> tame_at q3 16 b) /\ (1 < length (grid64 q3))%nat.
Proof.
  split; [exact q3_sized|]. split. { split; [lra|]. change 16 with (bpow radix2 4). apply bpow_le. lia. } split; [destruct (proj2 (C115_shape q3 ZeroIntegral (grid64 q3)) ltac:(reflexivity)) as (ys & ss & E & _); now exists ys, ss|].
  split; [|vm_compute; lia].
  assert (A : forallb (fun b => forallb (fun r => checked (g3 (list_set r 0 b))) (p64_rows q3)) (grid64 q3) = true) by (vm_compute; reflexivity).
  intros b Hb. apply q3_tame. rewrite forallb_forall in A. now apply A.
Qed.
(** and its ICE curves increase from the second to the last centering point *)
Example q3_increases : forall r, In r (kept64 q3) -> Bleb (ice64 (p64_target q3) (p64_feature q3) r (nth 1 (grid64 q3) fnan)) (ice64 (p64_target q3) (p64_feature q3) r (nth 99 (grid64 q3) fnan)) = true.
Proof. intros r Hr. rewrite q3_kept in Hr. cbn [q3 p64_rows In] in Hr. destruct Hr as [<-|[<-|[<-|[]]]]; vm_compute; reflexivity. Qed.
(** and it is additive up to 17 * 2^-53, with a the position and b twice the second feature (C117_additive_partial) *)
Example q3_additive : forall r y, In r (kept64 q3) -> In y (grid64 q3) ->
  Rabs (val (ice64 (p64_target q3) (p64_feature q3) r y) - (val y + 2 * val (nth 1 r fnan))) <= 17 * bpow radix2 (-53).
Proof.
  assert (A : forallb (fun y => checked y && Bleb fzero y && Bleb y (fofZ 2)) (grid64 q3) = true) by (vm_compute; reflexivity).
  assert (A2 : forallb (fun r => checked (nth 1 r fnan) && Bleb fzero (nth 1 r fnan) && Bleb (nth 1 r fnan) (fofZ 5)) (p64_rows q3) = true) by (vm_compute; reflexivity).
  intros r y Hr Hy. rewrite q3_kept in Hr. rewrite forallb_forall in A, A2. specialize (A y Hy). specialize (A2 r Hr).
  apply andb_true_iff in A as [A A3]. apply andb_true_iff in A as [A A1]. apply checked_ok in A as [Fy _]. apply andb_true_iff in A2 as [B B3]. apply andb_true_iff in B as [B B1]. apply checked_ok in B as [Fz _].
  destruct (fofZ_val 2 ltac:(lia)) as [V2 F2]. destruct (fofZ_val 5 ltac:(lia)) as [V5 F5].
  apply fle_val in A1, A3, B1, B3; auto; try reflexivity. rewrite V2 in A3. rewrite V5 in B3. change (val fzero) with 0 in A1, B1.
  assert (L : (1 < length r)%nat /\ nth 0 (list_set r 0 y) fnan = y /\ nth 1 (list_set r 0 y) fnan = nth 1 r fnan).
  { cbn [q3 p64_rows In] in Hr. destruct Hr as [<-|[<-|[<-|[]]]]; (split; [cbn; lia|split; reflexivity]). }
  destruct L as (_ & E0 & E1). cbn [q3 p64_target p64_feature ice64]. unfold g3. rewrite E0, E1. set (z := nth 1 r fnan) in *.
  destruct (fmul_val (fofZ 2) z F2 Fz) as [VM FM]; [rewrite V2, Rabs_pos_eq by lra; change (bpow radix2 1023) with (bpow radix2 (4 + 1019)); rewrite bpow_plus; assert (1 <= bpow radix2 1019) by (change 1 with (bpow radix2 0); apply bpow_le; lia); change (bpow radix2 4) with 16; lra|].
  assert (EM : val (fmul (fofZ 2) z) = 2 * val z).
  { rewrite VM, V2. apply dbl_fmt. rewrite Rabs_pos_eq by lra. apply Rle_trans with (bpow radix2 3); [change (bpow radix2 3) with 8; lra|apply bpow_le; lia]. }
  destruct (fadd_val y (fmul (fofZ 2) z) Fy FM) as [VA _]; [rewrite EM, Rabs_pos_eq by lra; change (bpow radix2 1023) with (bpow radix2 (4 + 1019)); rewrite bpow_plus; assert (1 <= bpow radix2 1019) by (change 1 with (bpow radix2 0); apply bpow_le; lia); change (bpow radix2 4) with 16; lra|].
  rewrite VA. destruct (rnd_plus_rel y (fmul (fofZ 2) z)) as (e & He & ->). rewrite EM. replace ((val y + 2 * val z) * (1 + e) - (val y + 2 * val z)) with ((val y + 2 * val z) * e) by ring.
  rewrite Rabs_mult, (Rabs_pos_eq (val y + 2 * val z)) by lra. apply Rmult_le_compat; try lra. apply Rabs_pos.
Qed.
