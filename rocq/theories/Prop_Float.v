(** Prop_Float: C98-C100, what the bins and the numerical Jacobian do in numpy's float64 (IEEE-754 binary64, round to
    nearest even). [val x] is the real number a finite float stands for, [bpow radix2 n] is 2^n. *)
From Coq Require Import Reals.
From Flocq Require Import Core.
From Flocq Require Import IEEE754.BinarySingleNaN.
From Verif Require Import Base Numpy FloatModel FloatFacts FloatGrid FloatBins FloatProofs FloatJac.
From Coq Require Import Lra.
Open Scope R_scope.

(** * C98. The largest instance belongs to the last bin *)

(** Adding EPS = 1e-8 to a limit changes it exactly when it lies in [-2^27, 2^27). *)
Theorem C98_widening (x : b64) : fin x ->
  (val x < val (fadd x EPS64) <-> - bpow radix2 27 <= val x < bpow radix2 27) /\
  (~ (- bpow radix2 27 <= val x < bpow radix2 27) -> fadd x EPS64 = x).
Proof.
  intros F. assert (B : ~ (- bpow radix2 27 <= val x < bpow radix2 27) -> fadd x EPS64 = x).
  { intros N. apply widen_big; [exact F|]. lra. }
  split; [|exact B]. split; [|intros H; now apply widen_small]. intros H.
  destruct (Rle_lt_dec (- bpow radix2 27) (val x)); [destruct (Rlt_le_dec (val x) (bpow radix2 27)); [now split|]|].
  - rewrite B in H by lra. lra.
  - rewrite B in H by lra. lra.
Qed.

(** ALE cannot be fitted on a feature that reaches 2^27 = 134217728 (default axis limits, any dataset, any model): with
    the default binning (m = 0) the fit raises IndexError; with min_points_per_bin = m it raises that or the
    AssertionError for sparse bins. *)
Theorem C98_ale_refuted X model f K m cat lo hi :
  fins (col64 X f) -> axis_limits64 X f = Ok (lo, hi) ->
  val lo < val hi -> bpow radix2 27 <= val hi ->
  Rabs (val lo) <= bpow radix2 1021 -> val hi <= bpow radix2 1021 ->
  (1 <= K)%nat -> (Z.of_nat K <= 2 ^ 48)%Z -> (cat < length (unique64 (col64 X f)))%nat ->
  (m = 0%nat -> ale_fit_feature64 X model lo hi f K m cat = Raise IndexError) /\
  (ale_fit_feature64 X model lo hi f K m cat = Raise IndexError \/ ale_fit_feature64 X model lo hi f K m cat = Raise AssertionError).
Proof.
  intros. rewrite (ale_big X model f K m cat lo hi) by assumption. split.
  - intros ->. now rewrite all_valid64_0.
  - destruct (all_valid64 _ _ _); auto.
Qed.

(** RHALE: with limits that end at 2^27 or above (or below -2^27) and an instance on the last limit, a fit that does not
    raise reports one bin more than there are limits to hold it, and every later evaluation raises ValueError. *)
Theorem C98_rhale_refuted xs es l p :
  fins xs -> fins l -> sorted64 l -> (3 <= length l)%nat ->
  (exists x, In x xs /\ val x = val (last64 l)) ->
  (bpow radix2 27 <= val (last64 l) \/ val (last64 l) < - bpow radix2 27) ->
  compute_ale_params64 xs es l = Ok p ->
  length (p64_points p) = length l /\
  forall ys square, compute_accumulated_effect64 ys (p64_limits p) (p64_effect p) (p64_dx p) square = Raise ValueError.
Proof.
  intros Fx F So L (x & Hx & Ex) B H. destruct (params_big xs es l p Fx F So ltac:(lia)) as (P1 & P2 & P3); auto.
  { exists x. split; [exact Hx|lra]. }
  split; [exact P1|]. intros ys sq. destruct (ale_params64_shape _ _ _ _ H) as (_ & _ & -> & _).
  apply accumulate_shape; auto; lia.
Qed.

(** What holds: when the last limit lies in [-2^27, 2^27), every instance between the limits falls in exactly the bin
    that contains it, and its local effect is the model's difference across that bin over the first bin's width. *)
Theorem C98_ale_partial X g l f :
  fins (col64 X f) -> X <> [] -> fins l -> sorted64 l -> (2 <= length l)%nat ->
  (forall r, In r X -> val (first64 l) <= val (nth f r fnan) <= val (last64 l)) ->
  - bpow radix2 27 <= val (last64 l) < bpow radix2 27 ->
  exists l' es, compute_local_effects64 X (map g) l f = (l', Ok es) /\
    length l' = length l /\ length es = length X /\
    (forall i, (S i < length l)%nat -> nth i l' fnan = nth i l fnan) /\
    val (last64 l) < val (last64 l') /\
    forall i, (i < length X)%nat -> exists k, (S k < length l)%nat /\
      let r := nth i X [] in
      val (nth k l' fnan) <= val (nth f r fnan) < val (nth (S k) l' fnan) /\
      nth i es fnan = fdiv (fsub (g (list_set r f (nth (S k) l' fnan))) (g (list_set r f (nth k l' fnan))))
                           (fsub (nth 1 l' fnan) (nth 0 l' fnan)).
Proof.
  intros FX NX F So L C B. destruct (local_effects_small X g l f FX NX F So L C B) as [E I].
  eexists _, _. split; [exact E|]. split; [apply widen64_length|]. split; [apply map_length|]. split; [|split].
  - intros i Hi. rewrite widen64_nth by lia. destruct (Nat.eqb_spec i (length l - 1)); [lia|reflexivity].
  - apply (widen64_sorted l); auto. lia.
  - intros i Hi. cbv zeta. set (r := nth i X []). assert (Hr : In r X) by now apply nth_In. destruct (I r Hr) as (I1 & I2).
    exists (bin_of (widen64 l) (nth f r fnan)). split; [exact I1|]. split; [exact I2|].
    match goal with |- nth i (map ?h X) _ = _ => rewrite (nth_indep _ fnan (h [])) by (now rewrite map_length); rewrite (map_nth h) end. reflexivity.
Qed.

(** and the fitted tables have one entry per bin *)
Theorem C98_rhale_partial xs es l p :
  fins xs -> fins l -> sorted64 l -> (2 <= length l)%nat ->
  (forall x, In x xs -> val (first64 l) <= val x <= val (last64 l)) ->
  - bpow radix2 27 <= val (last64 l) < bpow radix2 27 ->
  compute_ale_params64 xs es l = Ok p ->
  length (p64_points p) = (length l - 1)%nat /\ length (p64_effect p) = (length l - 1)%nat /\ length (p64_dx p) = (length l - 1)%nat.
Proof. apply params_small. Qed.

(** * C99. The numerical Jacobian *)

(** A feature all of whose values are 2^27 or more (or below -2^27) gets derivative exactly 0, whatever the model. *)
Theorem C99_zero_refuted model dim X i f J :
  compute_jacobian64 model dim X EPS64 = Ok J -> (i < length X)%nat -> (f < dim)%nat ->
  length (model X) = length X -> fins (model X) ->
  (forall r, In r X -> fin (nth f r fnan) /\ (bpow radix2 27 <= val (nth f r fnan) \/ val (nth f r fnan) < - bpow radix2 27)) ->
  val (nth f (nth i J []) fnan) = 0.
Proof. intros. rewrite (jacobian64_entry model dim X i f J); auto. Qed.

(** For the model x -> x_f, whose derivative is 1, an instance with |x_f| <= 2^e (0 <= e <= 26) gets a derivative within
    2^(e-25) of 1. *)
Theorem C99_identity_partial dim X f e : (0 <= e <= 26)%Z -> (f < dim)%nat ->
  exists J, compute_jacobian64 (map (fun r => nth f r fnan)) dim X EPS64 = Ok J /\
    forall i, (i < length X)%nat -> (f < length (nth i X []))%nat -> fin (nth f (nth i X []) fnan) -> Rabs (val (nth f (nth i X []) fnan)) <= bpow radix2 e ->
      Rabs (val (nth f (nth i J []) fnan) - 1) <= bpow radix2 (e - 25).
Proof.
  intros He Hf. rewrite jacobian64_rows. eexists. split; [reflexivity|]. intros i Hi Hl Fx B.
  match goal with |- context [nth i (map ?h X) []] => rewrite (nth_indep _ [] (h [])) by (now rewrite map_length); rewrite (map_nth h) end.
  match goal with |- context [nth f (map ?h (seq 0 dim)) fnan] => rewrite (nth_indep _ fnan (h 0%nat)) by (rewrite map_length, seq_length; exact Hf); rewrite (map_nth h), seq_nth by exact Hf end.
  cbn [Nat.add]. rewrite list_updn_nth by exact Hl. rewrite Nat.eqb_refl. now apply slope_of_identity.
Qed.

(** * C100. The equally spaced limits *)

(** K equal bins between two floats at least 2^-900 apart: K+1 finite, weakly increasing limits that start at lo and end
    at hi, each within 2^-49 M of the exact grid point, where M bounds |lo| and |hi|; strictly increasing when the range
    is at least 2^-48 K M wide. *)
Theorem C100_limits lo hi K M :
  fin lo -> fin hi -> Rabs (val lo) <= M -> Rabs (val hi) <= M -> M <= bpow radix2 1021 ->
  bpow radix2 (-900) <= val hi - val lo -> (1 <= K)%nat -> (Z.of_nat K <= 2 ^ 48)%Z ->
  let l := linspace64 lo hi (K + 1) in
  length l = (K + 1)%nat /\ fins l /\ val (nth 0 l fnan) = val lo /\ nth K l fnan = hi /\
  (forall i, (i < K)%nat -> val (nth i l fnan) <= val (nth (S i) l fnan)) /\
  (forall i, (i <= K)%nat ->
     Rabs (val (nth i l fnan) - (val lo + IZR (Z.of_nat i) / IZR (Z.of_nat K) * (val hi - val lo))) <= M * bpow radix2 (-49)) /\
  (bpow radix2 (-48) * IZR (Z.of_nat K) * M < val hi - val lo ->
     forall i, (i < K)%nat -> val (nth i l fnan) < val (nth (S i) l fnan)).
Proof.
  intros Flo Fhi B1 B2 HM HD HK HK2 l.
  destruct (linspace64_facts lo hi K Flo Fhi ltac:(lra) ltac:(lra) HD HK HK2) as (L & F & So & E1 & E2). fold l in L, F, So, E1, E2.
  assert (EK : nth K l fnan = hi) by now apply linspace_end.
  assert (KP : 1 <= IZR (Z.of_nat K)) by (apply IZR_le; lia).
  assert (MP : 0 <= M) by (eapply Rle_trans; [apply Rabs_pos|exact B1]).
  assert (Cl : forall i, (i <= K)%nat ->
     Rabs (val (nth i l fnan) - (val lo + IZR (Z.of_nat i) / IZR (Z.of_nat K) * (val hi - val lo))) <= M * bpow radix2 (-49)).
  { intros i Hi. destruct (Nat.eq_dec i K) as [->|N].
    - rewrite EK. replace (val hi - _) with 0 by (field; lra). rewrite Rabs_R0. apply Rmult_le_pos; [exact MP|apply bpow_ge_0].
    - unfold l. rewrite (linspace_at lo hi K M) by (auto; lia). apply (point_close lo hi K M); auto; lia. }
  split; [exact L|]. split; [exact F|]. split; [exact E1|]. split; [exact EK|]. split; [|split; [exact Cl|]].
  - intros i Hi. apply So. lia.
  - intros W i Hi. pose proof (Cl i ltac:(lia)) as C1. pose proof (Cl (S i) ltac:(lia)) as C2.
    apply Rabs_le_inv in C1, C2. rewrite Nat2Z.inj_succ, succ_IZR in C2.
    set (D := val hi - val lo) in *. set (k := IZR (Z.of_nat K)) in *. set (q := IZR (Z.of_nat i)) in *.
    assert (Hs : D / k > 2 * (M * bpow radix2 (-49))).
    { apply Rlt_gt. apply Rmult_lt_reg_r with k; [lra|]. replace (D / k * k) with D by (field; lra).
      eapply Rle_lt_trans; [|exact W]. change (-48)%Z with (1 + -49)%Z. rewrite bpow_plus. change (bpow radix2 1) with 2. right. ring. }
    replace ((q + 1) / k * D) with (q / k * D + D / k) in C2 by (field; lra). lra.
Qed.

Print Assumptions C98_widening. Print Assumptions C98_ale_refuted. Print Assumptions C98_rhale_refuted.
Print Assumptions C98_ale_partial. Print Assumptions C98_rhale_partial.
Print Assumptions C99_zero_refuted. Print Assumptions C99_identity_partial. Print Assumptions C100_limits.

(** * Concrete cases *)

(** The values 134217728 + i (i < 17), twice each: the default fit raises IndexError; the same instances shifted to start at 0 are fitted.
    The model is x -> x_0. *)
Definition values17 (base : Z) : list (list b64) := map (fun i => [fofZ (base + Z.of_nat i)]) (seq 0 17 ++ seq 0 17).
Definition ident64 : list (list b64) -> list b64 := map (fun r => nth 0 r fnan).
Definition default_fit (X : list (list b64)) : res params64 :=
  '(lo, hi) <- axis_limits64 X 0 ;; ale_fit_feature64 X ident64 lo hi 0 20 0 15.
Example large_fails : default_fit (values17 134217728) = Raise IndexError. Proof. vm_compute. reflexivity. Qed.
Example small_fits : exists p, default_fit (values17 0) = Ok p /\ length (p64_effect p) = 20%nat.
Proof.
  assert (E : match default_fit (values17 0) with Ok p => Nat.eqb (length (p64_effect p)) 20 | Raise _ => false end = true) by (vm_compute; reflexivity).
  destruct (default_fit (values17 0)) as [p|e]; [|discriminate]. exists p. split; [reflexivity|now apply Nat.eqb_eq].
Qed.
(** ... and the hypotheses of [C98_ale_refuted] hold for it *)
Lemma fins_check l : forallb is_finite l = true -> fins l.
Proof. intros H x Hx. exact (proj1 (forallb_forall _ _) H x Hx). Qed.
Example large_hyps : exists lo hi,
  fins (col64 (values17 134217728) 0) /\ axis_limits64 (values17 134217728) 0 = Ok (lo, hi) /\ val lo < val hi /\ bpow radix2 27 <= val hi
  /\ Rabs (val lo) <= bpow radix2 1021 /\ val hi <= bpow radix2 1021 /\ (15 < length (unique64 (col64 (values17 134217728) 0)))%nat.
Proof.
  assert (FC : fins (col64 (values17 134217728) 0)) by (apply fins_check; vm_compute; reflexivity).
  assert (T : match axis_limits64 (values17 134217728) 0 with
              | Ok (lo, hi) => Bltb lo hi && Bleb (fofZ 134217728) lo && Bleb hi (fofZ 268435456) | Raise _ => false end = true) by (vm_compute; reflexivity).
  destruct (axis_limits64 (values17 134217728) 0) as [[lo hi]|e] eqn:E; [|discriminate]. exists lo, hi.
  destruct (axis_limits64_ok _ _ _ _ FC E) as (_ & Fl & Fh & _).
  destruct (fofZ_val 134217728 ltac:(lia)) as [V1 F1]. destruct (fofZ_val 268435456 ltac:(lia)) as [V2 F2].
  apply andb_true_iff in T as [T T3]. apply andb_true_iff in T as [T1 T2].
  apply flt_val in T1; auto. apply fle_val in T2; auto. apply fle_val in T3; auto. rewrite V1 in T2. rewrite V2 in T3.
  assert (B : IZR 268435456 <= bpow radix2 1021) by (change (IZR 268435456) with (bpow radix2 28); apply bpow_le; lia).
  split; [exact FC|]. split; [reflexivity|]. split; [exact T1|].
  split; [change (bpow radix2 27) with (IZR 134217728); lra|]. split; [rewrite Rabs_pos_eq by lra; lra|]. split; [lra|].
  apply Nat.ltb_lt. vm_compute. reflexivity.
Qed.

(** RHALE on three bins ending at 2^27 + 6: four counts for three bins *)
Example rhale_extra_bin :
  match compute_ale_params64 (map fofZ [134217728; 134217729; 134217731; 134217732; 134217734; 134217734]%Z) (map fofZ [1; 2; 3; 4; 5; 7]%Z)
          (map fofZ [134217728; 134217730; 134217732; 134217734]%Z) with
  | Ok p => p64_points p = [2; 1; 1; 2]%nat /\ compute_accumulated_effect64 [fofZ 134217730] (p64_limits p) (p64_effect p) (p64_dx p) false = Raise ValueError
  | Raise _ => False
  end.
Proof. vm_compute. split; reflexivity. Qed.

(** derivatives of x -> x: 0 at 2^27, at least 1.49 at 2^26 *)
Example jac_large : compute_jacobian64 ident64 1 [[fofZ 134217728]] EPS64 = Ok [[fzero]]. Proof. vm_compute. reflexivity. Qed.
Example jac_medium : match compute_jacobian64 ident64 1 [[fofZ 67108864]] EPS64 with
  | Ok [[d]] => Bleb (fdiv (fofZ 149) (fofZ 100)) d = true | _ => False end. Proof. vm_compute. reflexivity. Qed.

(** the 20 default bins of [0, 16] *)
Example grid_16 : map (fun x => B2SF x) (firstn 3 (linspace64 (fofZ 0) (fofZ 16) 21)) =
  map (fun x => B2SF x) [fofZ 0; fdiv (fofZ 8) (fofZ 10); fdiv (fofZ 16) (fofZ 10)].
Proof. vm_compute. reflexivity. Qed.
