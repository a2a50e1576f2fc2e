(** FloatGrain: numbers that are 0 or not too small stay so under sums, differences, squares and divisions by a count; hence the
    variances of the bins (utils.py:193-244) are 0 or at least 2^-900. *)
From Coq Require Import Reals.
From Flocq Require Import Core.
From Flocq Require Import IEEE754.BinarySingleNaN.
From Verif Require Import Base Numpy NumpyFacts FloatModel FloatFacts FloatGrid FloatBins FloatProofs FloatMean FloatAcc FloatVar FloatFill FloatLine FloatLine2 FloatFit FloatRegion FloatRegionMain FloatPDPStd FloatRegionPDPProofs FloatRegionALEProofs Prop_FloatMean Prop_FloatVar.
From Coq Require Import Lra.
Open Scope R_scope.

(** a multiple of 2^k *)
Definition grain (k : Z) (x : R) : Prop := exists n : Z, x = IZR n * bpow radix2 k.
Definition coarse (k : Z) (v : b64) : Prop := fin v /\ (val v = 0 \/ bpow radix2 k <= Rabs (val v)).

Lemma grain_0 k : grain k 0. Proof. exists 0%Z. ring. Qed.
Lemma grain_plus k x y : grain k x -> grain k y -> grain k (x + y).
Proof. intros [n ->] [m ->]. exists (n + m)%Z. rewrite plus_IZR. ring. Qed.
Lemma grain_opp k x : grain k x -> grain k (- x).
Proof. intros [n ->]. exists (- n)%Z. rewrite opp_IZR. ring. Qed.
Lemma grain_coarse k x : grain k x -> x = 0 \/ bpow radix2 k <= Rabs x.
Proof.
  intros [n ->]. destruct (Z.eq_dec n 0) as [->|N]; [left; ring|right]. rewrite Rabs_mult, (Rabs_pos_eq (bpow radix2 k)) by apply bpow_ge_0. rewrite <- abs_IZR.
  pose proof (bpow_gt_0 radix2 k). assert (1 <= IZR (Z.abs n)) by (apply IZR_le; lia). assert (1 * bpow radix2 k <= IZR (Z.abs n) * bpow radix2 k) by (apply Rmult_le_compat_r; lra). lra.
Qed.
Lemma grain_F2R k m e : (k <= e)%Z -> grain k (F2R (Float radix2 m e)).
Proof. intros H. exists (m * 2 ^ (e - k))%Z. unfold F2R. cbn [Fnum Fexp]. rewrite mult_IZR. change 2%Z with (radix_val radix2) at 1. rewrite IZR_Zpower by lia. rewrite Rmult_assoc, <- bpow_plus. do 2 f_equal. lia. Qed.
Lemma grain_rnd k x : (-1074 <= k)%Z -> grain k x -> grain k (rnd x).
Proof.
  intros Hk [n Ex]. destruct (Z.le_gt_cases (cexp radix2 fexp64 x) k) as [L|L].
  - rewrite round_generic; [exists n; exact Ex|typeclasses eauto|]. assert (E : x = F2R (Float radix2 n k)) by exact Ex. rewrite E. apply generic_format_F2R. intros _. rewrite <- E. exact L.
  - unfold round. apply grain_F2R. lia.
Qed.
Lemma coarse_grain k v : (-1022 <= k)%Z -> coarse k v -> grain (k - 52) (val v).
Proof.
  intros Hk [F [Z|B]]; [rewrite Z; apply grain_0|]. pose proof (val_fmt v) as G. unfold generic_format in G. rewrite G. apply grain_F2R. unfold cexp. rewrite fexp64_eq.
  assert (N : val v <> 0). { intros E. rewrite E, Rabs_R0 in B. pose proof (bpow_gt_0 radix2 k). lra. }
  pose proof (mag_ge_bpow radix2 (val v) (k + 1)) as M. replace (k + 1 - 1)%Z with k in M by lia. specialize (M B). lia.
Qed.

(** ** values of finite results *)
Lemma ovf_fin (r : b64) s : B2SF r = binary_overflow 53 1024 mode_NE s -> fin r -> False.
Proof. intros E F. unfold binary_overflow, overflow_to_inf in E. destruct r; try discriminate F; discriminate E. Qed.
Lemma fsub_inv x y : fin x -> fin y -> fin (fsub x y) -> val (fsub x y) = rnd (val x - val y).
Proof.
  intros Fx Fy F. pose proof (Bminus_correct 53 1024 _ _ mode_NE x y Fx Fy) as P. cbn [round_mode] in P. destruct (Rlt_bool _ _); [exact (proj1 P)|].
  exfalso. exact (ovf_fin _ _ (proj1 P) F).
Qed.
Lemma fmul_inv x y : fin (fmul x y) -> val (fmul x y) = rnd (val x * val y).
Proof.
  intros F. pose proof (Bmult_correct 53 1024 _ _ mode_NE x y) as P. cbn [round_mode] in P. destruct (Rlt_bool _ _); [exact (proj1 P)|].
  exfalso. exact (ovf_fin _ _ P F).
Qed.
Lemma fdiv_inv x y : val y <> 0 -> fin (fdiv x y) -> val (fdiv x y) = rnd (val x / val y).
Proof.
  intros N F. pose proof (Bdiv_correct 53 1024 _ _ mode_NE x y N) as P. cbn [round_mode] in P. destruct (Rlt_bool _ _); [exact (proj1 P)|].
  exfalso. exact (ovf_fin _ _ P F).
Qed.

Lemma rnd_ge k x : (-1074 <= k)%Z -> bpow radix2 k <= Rabs x -> bpow radix2 k <= Rabs (rnd x).
Proof. intros Hk H. apply abs_round_ge_generic; try typeclasses eauto; [|exact H]. apply generic_format_bpow. rewrite fexp64_eq. lia. Qed.

Lemma fold_fin l : forall acc, fin (fold_left fadd l acc) -> fin acc.
Proof. induction l as [|a l IH]; intros acc F; [exact F|]. cbn [fold_left] in F. apply IH in F. now destruct (fadd_inv _ _ F) as (F1 & _ & _). Qed.
Lemma fold_grain k l : (-1074 <= k)%Z -> (forall e, In e l -> grain k (val e)) -> forall acc, grain k (val acc) -> fin (fold_left fadd l acc) -> grain k (val (fold_left fadd l acc)).
Proof.
  intros Hk H. induction l as [|a l IH]; intros acc G F; [exact G|]. cbn [fold_left] in *. apply IH; [intros e He; apply H; now right| |exact F].
  destruct (fadd_inv _ _ (fold_fin _ _ F)) as (_ & _ & ->). apply grain_rnd; [exact Hk|]. apply grain_plus; [exact G|]. apply H. now left.
Qed.
Lemma fsum_grain k l : (-1074 <= k)%Z -> (forall e, In e l -> grain k (val e)) -> fin (fsum l) -> grain k (val (fsum l)).
Proof. intros Hk H F. apply fold_grain; auto. apply grain_0. Qed.

Lemma count_coarse k s n : (-1022 <= k)%Z -> grain k (val s) -> (1 <= n)%nat -> idx64 n -> fin (fdiv s (fofn n)) -> coarse (k - 50) (fdiv s (fofn n)).
Proof.
  intros Hk G Hn Hi F. destruct (fofn_idx n Hi) as [V _]. unfold idx64 in Hi. assert (N1 : 1 <= IZR (Z.of_nat n)) by (apply IZR_le; lia).
  assert (N2 : IZR (Z.of_nat n) <= bpow radix2 50) by (change (bpow radix2 50) with (IZR (2 ^ 50)); apply IZR_le; lia).
  split; [exact F|]. rewrite fdiv_inv by (rewrite ?V; auto; lra). rewrite V. destruct (grain_coarse k _ G) as [Z|B].
  - left. rewrite Z. unfold Rdiv. rewrite Rmult_0_l. apply rnd_0.
  - right. apply rnd_ge; [lia|]. unfold Rdiv. rewrite Rabs_mult, Rabs_inv, (Rabs_pos_eq (IZR _)) by lra. replace (k - 50)%Z with (k + -50)%Z by lia. rewrite bpow_plus.
    apply Rmult_le_compat; try apply bpow_ge_0; [exact B|]. change (-50)%Z with (- (50))%Z. rewrite bpow_opp. apply Rinv_le; lra.
Qed.
Lemma square_coarse k m e : (-500 <= k)%Z -> grain k (val m) -> grain k (val e) -> fin m -> fin e -> fin (sqdev m e) -> coarse (2 * k) (sqdev m e).
Proof.
  intros Hk Gm Ge Fm Fe F. split; [exact F|]. unfold sqdev in *. assert (Fs : fin (fsub e m)). { destruct (fsub e m); try reflexivity; discriminate F. }
  rewrite fmul_inv by exact F. pose proof (fsub_inv e m Fe Fm Fs) as V.
  assert (G : grain k (val (fsub e m))). { rewrite V. apply grain_rnd; [lia|]. apply grain_plus; [exact Ge|now apply grain_opp]. }
  destruct (grain_coarse k _ G) as [Z|B].
  - left. rewrite Z, Rmult_0_l. apply rnd_0.
  - right. apply rnd_ge; [lia|]. rewrite Rabs_mult. replace (2 * k)%Z with (k + k)%Z by lia. rewrite bpow_plus. pose proof (bpow_ge_0 radix2 k). apply Rmult_le_compat; auto.
Qed.

(** ** the entries of the bins *)
Section Entry.
  Variables (xs es l be bv bev : list b64) (k : nat).
  Hypotheses (Fx : fins xs) (F : fins (widen64 l)) (So : sorted64 (widen64 l)) (Hk : (S k < length l)%nat) (Le : length xs = length es).
  Let ms := bin_members (widen64 l) k xs es.

  Lemma entry_members : let idx := map (fun x => (Z.of_nat (digitize64_1 (widen64 l) x) - 1)%Z) xs in
    map snd (filter (fun p => Z.eqb (Z.of_nat k) (fst p)) (combine idx es)) = ms /\ count (Z.eqb (Z.of_nat k)) idx = length ms.
  Proof.
    intros idx. assert (Ms : map snd (filter (fun p => Z.eqb (Z.of_nat k) (fst p)) (combine idx es)) = ms).
    { unfold idx, ms, bin_members. apply filter_combine_map. intros x Hx. symmetry. apply in_bin_digitize; auto. rewrite widen64_length. exact Hk. }
    split; [exact Ms|]. rewrite <- Ms. unfold count, idx. rewrite map_length.
    clear - Le. revert es Le. induction xs as [|x xs' IH]; intros [|e es'] L; cbn in L; try lia; [reflexivity|]. cbn [map combine filter fst].
    destruct (Z.eqb _ _); cbn [length]; rewrite (IH es') by lia; reflexivity.
  Qed.
  Lemma effect_entry ppb : compute_bin_effect64 xs es l = Ok (be, ppb) -> ms <> [] -> nth k be fnan = fdiv (fsum ms) (fofn (length ms)).
  Proof.
    intros H NE. unfold compute_bin_effect64 in H. apply bind_ok in H as (idx & I & H). apply bind_ok in H as (agg & A & H). apply bind_ok in H as (pp & P & H).
    rewrite bin_indices64_eq in I by (auto; lia). assert (EI : idx = map (fun x => (Z.of_nat (digitize64_1 (widen64 l) x) - 1)%Z) xs) by congruence.
    assert (Eb : be = divide_where64 (fun n => negb (Nat.eqb n 0)) agg pp) by congruence. destruct entry_members as [Ms Pk]. rewrite <- EI in Ms, Pk.
    unfold bincount_w64 in A. destruct (negb _); [discriminate|]. destruct (existsb _ _); [discriminate|]. unfold bincount in P. destruct (existsb _ _); [discriminate|].
    set (W := bincount_len idx (length l - 1)) in *. assert (HW : (k < W)%nat) by (unfold W, bincount_len; lia).
    assert (Ha : agg = map (fun k => fsum (map snd (filter (fun p => Z.eqb (Z.of_nat k) (fst p)) (combine idx es)))) (seq 0 W)) by congruence.
    assert (Hp : pp = map (fun k => count (Z.eqb (Z.of_nat k)) idx) (seq 0 W)) by congruence.
    rewrite Eb. unfold divide_where64. match goal with |- nth k (map ?h _) _ = _ => rewrite (nth_indep _ fnan (h (fnan, 0%nat))) by (rewrite map_length, combine_length, Ha, Hp, !map_length, seq_length; lia); rewrite (map_nth h) end.
    rewrite combine_nth by (rewrite Ha, Hp, !map_length; reflexivity). cbn [fst snd]. rewrite Hp, Ha.
    match goal with |- context [nth k (map ?h (seq 0 W)) 0%nat] => rewrite (nth_indep (map h _) 0%nat (h 0%nat)) by (rewrite map_length, seq_length; exact HW); rewrite (map_nth h), seq_nth by exact HW end.
    match goal with |- context [nth k (map ?h (seq 0 W)) fnan] => rewrite (nth_indep (map h _) fnan (h 0%nat)) by (rewrite map_length, seq_length; exact HW); rewrite (map_nth h), seq_nth by exact HW end.
    cbn [Nat.add]. rewrite Ms, Pk. destruct ms as [|a q]; [congruence|]. reflexivity.
  Qed.
  Lemma variance_entry : (k < length be)%nat -> compute_bin_variance64 xs es l be = Ok (bv, bev) ->
    nth k bv fnan = if Nat.ltb 1 (length ms) then fdiv (fsum (map (sqdev (nth k be fnan)) ms)) (fofn (length ms)) else fnan.
  Proof.
    intros Hb H. unfold compute_bin_variance64 in H.
    apply bind_ok in H as (idx & I & H). apply bind_ok in H as (mm & TM & H). apply bind_ok in H as (vpp & VP & H). apply bind_ok in H as (agg & A & H). apply bind_ok in H as (pp & P & H).
    rewrite bin_indices64_eq in I by (auto; lia). assert (EI : idx = map (fun x => (Z.of_nat (digitize64_1 (widen64 l) x) - 1)%Z) xs) by congruence.
    assert (Eb : bv = divide_where64 (fun n => Nat.ltb 1 n) agg pp) by congruence. destruct entry_members as [Ms Pk]. rewrite <- EI in Ms, Pk.
    assert (Li : length idx = length es) by (rewrite EI, map_length; exact Le).
    assert (Lm : length mm = length idx). { clear - TM. unfold takez in TM. revert mm TM. induction idx as [|z idx IH]; intros mm H; cbn [mapM] in H; [inversion H; reflexivity|].
      apply bind_ok in H as (a & _ & H). apply bind_ok in H as (b & Hb & H). assert (mm = a :: b) by congruence. subst mm. cbn [length]. now rewrite (IH b). }
    unfold vzip in VP. rewrite Lm, Li, Nat.eqb_refl in VP.
    assert (Ep : vpp = map (fun p => fmul (fsub (fst p) (snd p)) (fsub (fst p) (snd p))) (combine es mm)) by congruence.
    unfold bincount_w64 in A. destruct (negb _); [discriminate|]. destruct (existsb _ _); [discriminate|]. unfold bincount in P. destruct (existsb _ _); [discriminate|].
    set (W := bincount_len idx (length l - 1)) in *. assert (HW : (k < W)%nat) by (unfold W, bincount_len; lia).
    assert (Ha : agg = map (fun k => fsum (map snd (filter (fun p => Z.eqb (Z.of_nat k) (fst p)) (combine idx vpp)))) (seq 0 W)) by congruence.
    assert (Hp : pp = map (fun k => count (Z.eqb (Z.of_nat k)) idx) (seq 0 W)) by congruence.
    rewrite Eb. unfold divide_where64. match goal with |- nth k (map ?h _) _ = _ => rewrite (nth_indep _ fnan (h (fnan, 0%nat))) by (rewrite map_length, combine_length, Ha, Hp, !map_length, seq_length; lia); rewrite (map_nth h) end.
    rewrite combine_nth by (rewrite Ha, Hp, !map_length; reflexivity). cbn [fst snd]. rewrite Hp, Ha.
    match goal with |- context [nth k (map ?h (seq 0 W)) 0%nat] => rewrite (nth_indep (map h _) 0%nat (h 0%nat)) by (rewrite map_length, seq_length; exact HW); rewrite (map_nth h), seq_nth by exact HW end.
    match goal with |- context [nth k (map ?h (seq 0 W)) fnan] => rewrite (nth_indep (map h _) fnan (h 0%nat)) by (rewrite map_length, seq_length; exact HW); rewrite (map_nth h), seq_nth by exact HW end.
    cbn [Nat.add]. rewrite Pk, Ep, (weights_of_bin be k idx es mm TM Li Hb), Ms. reflexivity.
  Qed.
End Entry.

Lemma fdiv_fin x y : fin (fdiv x y) -> fin x.
Proof. destruct x as [s|s| |s m e B]; intros F; try reflexivity; destruct y as [t|t| |t q d V]; discriminate F. Qed.
Lemma fold_fin_in l : forall acc, fin (fold_left fadd l acc) -> fins l.
Proof.
  induction l as [|a l IH]; intros acc F x Hx; [destruct Hx|]. cbn [fold_left] in F. destruct Hx as [<-|Hx]; [now destruct (fadd_inv _ _ (fold_fin _ _ F)) as (_ & Fa & _)|exact (IH _ F x Hx)].
Qed.
Lemma fold_plus l : (forall e, In e l -> plus64 e) -> forall acc, plus64 acc -> fin (fold_left fadd l acc) -> plus64 (fold_left fadd l acc).
Proof.
  intros H. induction l as [|a l IH]; intros acc P F; [exact P|]. cbn [fold_left] in *. apply IH; [intros e He; apply H; now right| |exact F].
  apply fadd_plus; [exact P|apply H; now left|exact (fold_fin _ _ F)].
Qed.

(** the variance of a bin of effects that are 0 or at least 2^-240: sign +, and 0 or at least 2^-900 *)
Lemma variance_moderate xs es l be bv bev ppb k : fins xs -> fins (widen64 l) -> sorted64 (widen64 l) -> (S k < length l)%nat -> length xs = length es -> (Z.of_nat (length xs) <= 2 ^ 40)%Z ->
  compute_bin_effect64 xs es l = Ok (be, ppb) -> (k < length be)%nat -> compute_bin_variance64 xs es l be = Ok (bv, bev) ->
  (forall e, In e es -> coarse (-240) e) -> fin (nth k bv fnan) -> val (nth k bv fnan) <= bpow radix2 1020 -> plus64 (nth k bv fnan) /\ moderate (nth k bv fnan).
Proof.
  intros Fx F So Hk Le HN HB Hb HV HC FV BV. pose proof (variance_entry xs es l be bv bev k Fx F So Hk Le Hb HV) as E. set (ms := bin_members (widen64 l) k xs es) in *. set (m := nth k be fnan) in *.
  destruct (Nat.ltb_spec 1 (length ms)) as [L1|L1]; [|rewrite E in FV; discriminate FV]. rewrite E in *. set (n := length ms) in *. set (qs := map (sqdev m) ms) in *.
  assert (IN : forall e, In e ms -> In e es). { intros e He. unfold ms, bin_members in He. apply in_map_iff in He as ((x & e') & <- & He). apply filter_In in He as [He _]. now apply in_combine_r in He. }
  assert (Ln : (n <= length xs)%nat). { unfold n, ms, bin_members. rewrite map_length. eapply Nat.le_trans; [apply filter_length_le|]. rewrite combine_length. lia. }
  assert (Hi : idx64 n) by (unfold idx64; lia). destruct (fofn_plus n ltac:(lia) ltac:(lia)) as [PN VN]. assert (N0 : val (fofn n) <> 0) by (rewrite VN; apply not_0_INR; lia).
  pose proof (fdiv_fin _ _ FV) as FS. pose proof (fold_fin_in _ _ FS) as FQ.
  assert (Em : m = fdiv (fsum ms) (fofn n)). { apply (effect_entry xs es l be k Fx F So Hk Le ppb HB). fold ms. intros Z. unfold n in L1. rewrite Z in L1. cbn in L1. lia. }
  assert (SQ : forall e, In e ms -> fin (sqdev m e)) by (intros e He; apply FQ, in_map, He).
  assert (DF : forall e, In e ms -> fin (fsub e m)). { intros e He. specialize (SQ e He). unfold sqdev in SQ. destruct (fsub e m); try reflexivity; discriminate SQ. }
  assert (FE : forall e, In e ms -> fin e) by (intros e He; apply (HC e (IN e He))).
  assert (Fm : fin m). { destruct ms as [|e ms'] eqn:EM; [cbn in n; unfold n in L1; lia|]. specialize (DF e (or_introl eq_refl)). specialize (FE e (or_introl eq_refl)). clear - DF FE. destruct e as [s|s| |s a b B]; try discriminate FE; destruct m as [t|t| |t q d V]; try reflexivity; discriminate DF. }
  assert (Gm : grain (-394) (val m)).
  { replace (-394)%Z with (-342 - 52)%Z by lia. apply coarse_grain; [lia|]. replace (-342)%Z with (-292 - 50)%Z by lia. rewrite Em. apply count_coarse; [lia| |lia|exact Hi|rewrite <- Em; exact Fm].
    apply fsum_grain; [lia| |rewrite Em in Fm; exact (fdiv_fin _ _ Fm)]. intros e He. apply (coarse_grain (-240)); [lia|]. apply HC, IN, He. }
  assert (CQ : forall q, In q qs -> coarse (-788) q /\ plus64 q).
  { intros q Hq. apply in_map_iff in Hq as (e & <- & He). split; [|apply square_plus; auto; exact (SQ e He)]. change (-788)%Z with (2 * -394)%Z. apply square_coarse; auto; [lia|].
    destruct (coarse_grain (-240) e ltac:(lia) (HC e (IN e He))) as [z Ez]. exists (z * 2 ^ 102)%Z. rewrite Ez, mult_IZR. change 2%Z with (radix_val radix2). rewrite IZR_Zpower by lia. rewrite Rmult_assoc, <- bpow_plus. reflexivity. }
  assert (PS : plus64 (fsum qs)) by (apply fold_plus; [intros q Hq; now apply CQ|split; reflexivity|exact FS]).
  assert (PV : plus64 (fdiv (fsum qs) (fofn n))) by (apply fdiv_plus; auto). split; [exact PV|]. split; [exact FV|].
  destruct (count_coarse (-840) (fsum qs) n ltac:(lia)) as [_ [Z|B]]; auto; [|lia|].
  - apply fsum_grain; [lia| |exact FS]. intros q Hq. replace (-840)%Z with (-788 - 52)%Z by lia. apply coarse_grain; [lia|]. now apply CQ.
  - right. rewrite (Rabs_pos_eq (val (fdiv _ _))) in B by now apply plus_val. split; [|exact BV]. eapply Rle_trans; [|exact B]. apply bpow_le. lia.
Qed.
