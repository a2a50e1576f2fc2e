(** FloatProofs: the binary64 fit of ALE, the number of bins of RHALE, the numerical Jacobian. *)
From Coq Require Import Reals.
From Flocq Require Import Core.
From Flocq Require Import IEEE754.BinarySingleNaN.
From Verif Require Import Base Numpy FloatModel FloatFacts FloatGrid FloatBins.
From Coq Require Import Lra.
Open Scope R_scope.

(** ** the limits of Fixed *)
Lemma linspace64_facts lo hi K : fin lo -> fin hi -> Rabs (val lo) <= bpow radix2 1021 -> Rabs (val hi) <= bpow radix2 1021 ->
  bpow radix2 (-900) <= val hi - val lo -> (1 <= K)%nat -> (Z.of_nat K <= 2 ^ 48)%Z ->
  let l := linspace64 lo hi (K + 1) in
  length l = (K + 1)%nat /\ fins l /\ sorted64 l /\ val (first64 l) = val lo /\ last64 l = hi.
Proof.
  intros Flo Fhi B1 B2 HD HK HK2 l. pose proof (Rle_refl (bpow radix2 1021)) as MM.
  assert (L : length l = (K + 1)%nat) by now apply linspace_len.
  assert (P : forall i, (i < K)%nat -> nth i l fnan = point lo hi K i) by (intros; now apply linspace_at with (M := bpow radix2 1021)).
  assert (E : nth K l fnan = hi) by now apply linspace_end.
  split; [exact L|]. split; [|split; [|split]].
  - intros x Hx. apply In_nth with (d := fnan) in Hx as (i & Hi & <-). destruct (Nat.eq_dec i K) as [->|N]; [now rewrite E|].
    rewrite P by lia. apply (point_val lo hi K (bpow radix2 1021)); auto; lia.
  - intros i Hi. rewrite L in Hi. rewrite (P i) by lia. destruct (Nat.eq_dec (S i) K) as [<-|N].
    + rewrite E. apply (point_le_hi lo hi (S i) (bpow radix2 1021)); auto.
    + rewrite P by lia. apply (point_le lo hi K (bpow radix2 1021)); auto; lia.
  - unfold first64. rewrite P by lia. apply (point_0 lo hi K (bpow radix2 1021)); auto.
  - unfold last64. rewrite L. now replace (K + 1 - 1)%nat with K by lia.
Qed.

(** two different floats around or above 2^26 differ by at least 2^-26 *)
Lemma gap_above (lo hi : b64) : bpow radix2 27 <= val hi -> val lo < val hi -> bpow radix2 (-26) <= val hi - val lo.
Proof.
  intros H L. assert (Fh := val_fmt hi). pose proof (bpow_gt_0 radix2 27) as P27.
  assert (Pr : val lo <= pred radix2 fexp64 (val hi)) by (apply pred_ge_gt; [typeclasses eauto|apply val_fmt|exact Fh|exact L]).
  assert (B26 : bpow radix2 26 <= pred radix2 fexp64 (val hi)).
  { apply pred_ge_gt; [typeclasses eauto|apply generic_format_bpow; rewrite fexp64_eq; lia|exact Fh|].
    eapply Rlt_le_trans; [|exact H]. apply bpow_lt. lia. }
  pose proof (pred_plus_ulp radix2 fexp64 (val hi) ltac:(lra) Fh) as E.
  pose proof (ulp_ge _ 26 B26 ltac:(lia)) as U. change (26 - 52)%Z with (-26)%Z in U. lra.
Qed.

Lemma all_valid64_0 xs l : all_valid64 xs 0 l = true.
Proof. unfold all_valid64. apply forallb_forall. reflexivity. Qed.

Lemma axis_limits64_ok X f lo hi : fins (col64 X f) -> axis_limits64 X f = Ok (lo, hi) ->
  X <> [] /\ fin lo /\ fin hi /\ (exists r, In r X /\ nth f r fnan = hi) /\ (forall r, In r X -> val lo <= val (nth f r fnan) <= val hi).
Proof.
  intros F H. unfold axis_limits64 in H. apply bind_ok in H as (a & H1 & H). apply bind_ok in H as (b & H2 & H).
  assert (NX : X <> []). { intros ->. discriminate. }
  assert (NC : col64 X f <> []) by (destruct X; [congruence|discriminate]).
  destruct (np_min64_ok _ F NC) as (mn & E1 & Fm & I1 & M1). destruct (np_max64_ok _ F NC) as (mx & E2 & Fx & I2 & M2).
  assert (a = mn) by congruence. assert (b = mx) by congruence. assert (lo = a /\ hi = b) as [-> ->] by (split; congruence). subst a b.
  split; [exact NX|]. split; [exact Fm|]. split; [exact Fx|]. split.
  - apply in_map_iff in I2 as (r & R1 & R2). eauto.
  - intros r Hr. split; [apply M1|apply M2]; apply (in_map (fun r => nth f r fnan) X r Hr).
Qed.

Lemma kept_all X f lo hi : fins (col64 X f) -> fin lo -> fin hi -> (forall r, In r X -> val lo <= val (nth f r fnan) <= val hi) ->
  filter (in_range64 lo hi f) X = X.
Proof.
  intros F Fl Fh H. assert (G : forall r, In r X -> in_range64 lo hi f r = true).
  { intros r Hr. assert (fin (nth f r fnan)) by (apply F, (in_map (fun r => nth f r fnan) X r Hr)).
    unfold in_range64. rewrite andb_true_iff, !fle_val by assumption. split; now apply H. }
  clear H F. induction X as [|r X IH]; [reflexivity|]. cbn [filter]. rewrite G by now left. f_equal. apply IH. intros; apply G; now right.
Qed.

Lemma ale_big X model f K m cat lo hi : fins (col64 X f) -> axis_limits64 X f = Ok (lo, hi) ->
  val lo < val hi -> bpow radix2 27 <= val hi -> Rabs (val lo) <= bpow radix2 1021 -> val hi <= bpow radix2 1021 ->
  (1 <= K)%nat -> (Z.of_nat K <= 2 ^ 48)%Z -> (cat < length (unique64 (col64 X f)))%nat ->
  ale_fit_feature64 X model lo hi f K m cat =
    Raise (if all_valid64 (col64 X f) m (linspace64 lo hi (K + 1)) then IndexError else AssertionError).
Proof.
  intros F AL LT B B1 B2 HK HK2 HC. destruct (axis_limits64_ok _ _ _ _ F AL) as (NX & Fl & Fh & (r0 & R0 & E0) & C).
  pose proof (bpow_gt_0 radix2 27) as P27. pose proof (gap_above lo hi B LT) as G.
  destruct (linspace64_facts lo hi K Fl Fh B1 ltac:(rewrite Rabs_pos_eq; lra) ltac:(eapply Rle_trans; [|exact G]; apply bpow_le; lia) HK HK2) as (L & FF & So & E1 & E2).
  unfold ale_fit_feature64. cbv zeta. rewrite kept_all by assumption. unfold fixed_find64.
  rewrite (proj2 (Nat.leb_gt _ _) HC). cbv zeta. cbn [bind]. set (l := linspace64 lo hi (K + 1)) in *.
  destruct (all_valid64 (col64 X f) m l); [|reflexivity]. cbv iota.
  rewrite (local_effects_big X model l f r0 F FF So ltac:(lia)); [reflexivity| |exact R0|now rewrite E0, E2|left; now rewrite E2].
  intros r Hr. rewrite E1, E2. now apply C.
Qed.

(** ** RHALE: one bin too many *)
Lemma zmax0_ge l : (-1 <= zmax0 l)%Z /\ forall z, In z l -> (z <= zmax0 l)%Z.
Proof.
  unfold zmax0. induction l as [|a l [IH1 IH2]]; cbn [fold_right]; [split; [lia|now intros]|].
  split; [lia|]. intros z [<-|H]; [lia|]. specialize (IH2 z H). lia.
Qed.
Lemma zmax0_le l b : (-1 <= b)%Z -> (forall z, In z l -> (z <= b)%Z) -> (zmax0 l <= b)%Z.
Proof. intros Hb. unfold zmax0. induction l as [|a l IH]; intros H; cbn [fold_right]; [exact Hb|]. apply Z.max_lub; [apply H; now left|apply IH; intros; apply H; now right]. Qed.

Lemma fill64_length x y : fill_nans64 x = Ok y -> length y = length x.
Proof.
  unfold fill_nans64. destruct (valid_points64 0 x); [discriminate|]. intros H. apply mapM_length in H.
  rewrite combine_length, seq_length in H. lia.
Qed.

Lemma ale_params64_shape xs es l p : compute_ale_params64 xs es l = Ok p ->
  exists idx, bin_indices64 xs l = Ok idx /\ p64_limits p = l /\
    length (p64_dx p) = (length l - 1)%nat /\ bincount idx (length l - 1) = Ok (p64_points p) /\
    length (p64_effect p) = bincount_len idx (length l - 1) /\ length (p64_points p) = bincount_len idx (length l - 1).
Proof.
  intros H. unfold compute_ale_params64 in H. apply bind_ok in H as ((be, ppb) & H1 & H). apply bind_ok in H as ((bv, bev) & _ & H).
  apply bind_ok in H as (e & H3 & H). apply bind_ok in H as (v & _ & H). apply bind_ok in H as (w & _ & H).
  unfold compute_bin_effect64 in H1. apply bind_ok in H1 as (idx & I & H1). apply bind_ok in H1 as (agg & A & H1). apply bind_ok in H1 as (pp & P & H1).
  assert (Eb : be = divide_where64 (fun n => negb (Nat.eqb n 0)) agg pp) by congruence. assert (Ep : ppb = pp) by congruence. subst ppb.
  assert (EP : p = mkP64 l (map (fun p => fsub (snd p) (fst p)) (combine l (tl l))) pp e v w) by congruence. subst p.
  assert (La : length agg = bincount_len idx (length l - 1)).
  { unfold bincount_w64 in A. destruct (negb _); [discriminate|]. destruct (existsb _ _); [discriminate|].
    assert (E : agg = map (fun k => fsum (map snd (filter (fun p => Z.eqb (Z.of_nat k) (fst p)) (combine idx es)))) (seq 0 (bincount_len idx (length l - 1)))) by congruence.
    now rewrite E, map_length, seq_length. }
  assert (Lp : length pp = bincount_len idx (length l - 1)).
  { unfold bincount in P. destruct (existsb _ _); [discriminate|].
    assert (E : pp = map (fun k => count (Z.eqb (Z.of_nat k)) idx) (seq 0 (bincount_len idx (length l - 1)))) by congruence.
    now rewrite E, map_length, seq_length. }
  exists idx. cbn [p64_limits p64_dx p64_points p64_effect]. repeat split; auto.
  - rewrite map_length, combine_length. destruct l; cbn [length tl]; lia.
  - apply fill64_length in H3. rewrite H3, Eb. unfold divide_where64. rewrite map_length, combine_length. lia.
Qed.

Lemma bin_indices64_eq xs l : (1 <= length l)%nat -> fins (widen64 l) -> sorted64 (widen64 l) ->
  bin_indices64 xs l = Ok (map (fun x => (Z.of_nat (digitize64_1 (widen64 l) x) - 1)%Z) xs).
Proof.
  intros L F So. unfold bin_indices64. destruct l as [|a l]; [cbn in L; lia|].
  unfold digitize64. rewrite mono_incr64_sorted by assumption. cbn [bind]. now rewrite map_map.
Qed.

Lemma params_big xs es l p : fins xs -> fins l -> sorted64 l -> (2 <= length l)%nat ->
  (exists x, In x xs /\ val (last64 l) <= val x) ->
  (bpow radix2 27 <= val (last64 l) \/ val (last64 l) < - bpow radix2 27) ->
  compute_ale_params64 xs es l = Ok p ->
  length (p64_points p) = length l /\ length (p64_effect p) = length l /\ length (p64_dx p) = (length l - 1)%nat.
Proof.
  intros Fx F So L (x & Hx & Hv) B H. destruct (ale_params64_shape _ _ _ _ H) as (idx & I & _ & Ld & _ & Le & Lp).
  assert (W : widen64 l = l) by (apply widen64_noop; [lia|apply fins_nth; [exact F|lia]|exact B]).
  rewrite bin_indices64_eq in I by (rewrite ?W; auto; lia). rewrite W in I.
  assert (EI : idx = map (fun x => (Z.of_nat (digitize64_1 l x) - 1)%Z) xs) by congruence.
  assert (BL : bincount_len idx (length l - 1) = length l).
  { unfold bincount_len. destruct (zmax0_ge idx) as [_ Z].
    assert (In (Z.of_nat (length l) - 1)%Z idx).
    { rewrite EI. apply in_map_iff. exists x. split; [|exact Hx]. now rewrite (digitize64_top l x F So (Fx x Hx) ltac:(lia) Hv). }
    specialize (Z _ H0).
    assert (zmax0 idx <= Z.of_nat (length l) - 1)%Z.
    { apply zmax0_le; [lia|]. intros z Hz. rewrite EI in Hz. apply in_map_iff in Hz as (y & <- & _). pose proof (digitize64_le l y). lia. }
    lia. }
  rewrite BL in Le, Lp. auto.
Qed.

Lemma accumulate_shape xs l e d sq : fins l -> sorted64 l -> length e <> length d -> (2 <= length e)%nat -> (2 <= length d)%nat ->
  compute_accumulated_effect64 xs l e d sq = Raise ValueError.
Proof.
  intros F So N H1 H2. unfold compute_accumulated_effect64. unfold digitize64. rewrite mono_incr64_sorted by assumption. cbn [bind].
  unfold vzip. rewrite (proj2 (Nat.eqb_neq _ _) N). destruct e as [|a [|b e]]; [cbn in H1; lia|cbn in H1; lia|].
  destruct d as [|c [|d0 d]]; [cbn in H2; lia|cbn in H2; lia|]. reflexivity.
Qed.

Lemma params_small xs es l p : fins xs -> fins l -> sorted64 l -> (2 <= length l)%nat ->
  (forall x, In x xs -> val (first64 l) <= val x <= val (last64 l)) ->
  - bpow radix2 27 <= val (last64 l) < bpow radix2 27 ->
  compute_ale_params64 xs es l = Ok p ->
  length (p64_points p) = (length l - 1)%nat /\ length (p64_effect p) = (length l - 1)%nat /\ length (p64_dx p) = (length l - 1)%nat.
Proof.
  intros Fx F So L C B H. destruct (ale_params64_shape _ _ _ _ H) as (idx & I & _ & Ld & _ & Le & Lp).
  destruct (widen64_sorted l ltac:(lia) F So B) as (F' & So' & LL).
  rewrite bin_indices64_eq in I by (auto; lia).
  assert (EI : idx = map (fun x => (Z.of_nat (digitize64_1 (widen64 l) x) - 1)%Z) xs) by congruence.
  assert (BL : bincount_len idx (length l - 1) = (length l - 1)%nat).
  { unfold bincount_len. assert (zmax0 idx <= Z.of_nat (length l) - 2)%Z; [|lia].
    apply zmax0_le; [lia|]. intros z Hz. rewrite EI in Hz. apply in_map_iff in Hz as (y & <- & Hy).
    destruct (C y Hy) as [C1 C2].
    destruct (digitize64_inside (widen64 l) y F' So' (Fx y Hy)) as (k & E & K1 & _); [rewrite widen64_length; lia| |rewrite E, widen64_length in *; lia].
    split; [|unfold last64 at 2 in LL; lra]. rewrite widen64_nth by lia. destruct (Nat.eqb_spec 0 (length l - 1)); [lia|exact C1]. }
  rewrite BL in Le, Lp. auto.
Qed.

(** ** the numerical Jacobian *)
Definition stuck (x : b64) : Prop := fin x /\ (bpow radix2 27 <= val x \/ val x < - bpow radix2 27).

Lemma list_updn_id {A} (l : list A) i (h : A -> A) d : (h (nth i l d) = nth i l d) -> list_updn l i h = l.
Proof.
  intros H. destruct (Nat.lt_ge_cases i (length l)) as [L|L].
  - apply (nth_ext _ _ d d); [apply list_updn_length|]. intros j _. rewrite list_updn_nth by exact L.
    destruct (Nat.eqb_spec j i) as [->|]; [exact H|reflexivity].
  - revert i H L. induction l as [|a l IH]; intros [|i] H L; cbn in *; try lia; try reflexivity. f_equal. apply IH; [exact H|lia].
Qed.

Lemma fsub_self x : fin x -> fsub x x = fzero.
Proof.
  intros Fx. destruct (fsub_val x x Fx Fx) as [E F]; [rewrite Rminus_diag_eq, Rabs_R0 by reflexivity; apply bpow_ge_0|].
  rewrite Rminus_diag_eq, round_0 in E by (reflexivity || typeclasses eauto).
  pose proof (Bminus_correct 53 1024 _ _ mode_NE x x Fx Fx) as P. cbn [round_mode] in P.
  rewrite Rminus_diag_eq, round_0, Rabs_R0 in P by (reflexivity || typeclasses eauto). rewrite Rlt_bool_true in P by apply bpow_gt_0.
  destruct P as (_ & _ & P3). rewrite Rcompare_Eq in P3 by reflexivity. cbn in P3. fold (fsub x x) in P3.
  destruct (fsub x x) as [s|s| |s m e Hb]; try discriminate.
  - cbn in P3. subst s. unfold fzero. f_equal. destruct (Bsign x); reflexivity.
  - exfalso. cbn in E. apply eq_0_F2R in E. destruct s; discriminate.
Qed.
Lemma fdiv_0_eps : fdiv fzero EPS64 = fzero. Proof. reflexivity. Qed.

Lemma jacobian64_entry model dim X i f J : compute_jacobian64 model dim X EPS64 = Ok J ->
  (i < length X)%nat -> (f < dim)%nat -> length (model X) = length X -> fins (model X) ->
  (forall r, In r X -> stuck (nth f r fnan)) ->
  nth f (nth i J []) fnan = fzero.
Proof.
  intros H Hi Hf Lm Fm St. unfold compute_jacobian64 in H. apply bind_ok in H as (cols & Hc & H).
  assert (EJ : J = map (fun i => map (fun c => nth i c fnan) cols) (seq 0 (length X))) by congruence. subst J.
  rewrite (nth_indep _ [] ((fun i => map (fun c => nth i c fnan) cols) 0%nat)) by (rewrite map_length, seq_length; lia).
  rewrite (map_nth (fun i => map (fun c => nth i c fnan) cols)), seq_nth by lia. cbn [Nat.add].
  assert (Lc : length cols = dim) by (apply mapM_length in Hc; now rewrite seq_length in Hc).
  rewrite (nth_indep _ fnan ((fun c => nth i c fnan) [])) by (rewrite map_length; lia). rewrite (map_nth (fun c => nth i c fnan)).
  assert (G : forall n s cs, mapM (fun f => d <- vzip fsub (model (map (fun r => list_updn r f (fun v => fadd v EPS64)) X)) (model X) ;;
             let q := map (fun v => fdiv v EPS64) d in
             if Nat.eqb (length q) (length X) then Ok q else match q with [a] => Ok (repeat a (length X)) | _ => Raise ValueError end) (seq s n) = Ok cs ->
             forall k, (k < n)%nat -> (d <- vzip fsub (model (map (fun r => list_updn r (s + k) (fun v => fadd v EPS64)) X)) (model X) ;;
             let q := map (fun v => fdiv v EPS64) d in
             if Nat.eqb (length q) (length X) then Ok q else match q with [a] => Ok (repeat a (length X)) | _ => Raise ValueError end) = Ok (nth k cs [])).
  { clear. induction n as [|n IH]; intros s cs H k Hk; [lia|]. cbn [seq mapM] in H. apply bind_ok in H as (c & H1 & H). apply bind_ok in H as (cs' & H2 & H).
    assert (cs = c :: cs') by congruence. subst cs. destruct k as [|k]; cbn [nth].
    - rewrite Nat.add_0_r. exact H1.
    - rewrite <- Nat.add_succ_comm. apply IH; [exact H2|lia]. }
  specialize (G dim 0%nat cols Hc f Hf). cbn [Nat.add] in G.
  assert (EX : map (fun r => list_updn r f (fun v => fadd v EPS64)) X = X).
  { rewrite <- (map_id X) at 2. apply map_ext_in. intros r Hr. apply list_updn_id with (d := fnan). destruct (St r Hr). now apply widen_big. }
  rewrite EX in G. unfold vzip in G. rewrite Nat.eqb_refl in G. cbn [bind] in G. cbv zeta in G.
  rewrite !map_length, combine_length, Lm, Nat.min_id, Nat.eqb_refl in G. rewrite map_map in G.
  assert (EN : nth f cols [] = map (fun p : b64 * b64 => fdiv (fsub (fst p) (snd p)) EPS64) (combine (model X) (model X))) by congruence.
  rewrite EN. rewrite (nth_indep _ fnan (fdiv (fsub fnan fnan) EPS64)) by (rewrite map_length, combine_length; lia).
  change (fdiv (fsub fnan fnan) EPS64) with ((fun p : b64 * b64 => fdiv (fsub (fst p) (snd p)) EPS64) (fnan, fnan)). rewrite map_nth, combine_nth by reflexivity.
  cbn [fst snd]. rewrite fsub_self by (apply Fm, nth_In; lia). apply fdiv_0_eps.
Qed.
