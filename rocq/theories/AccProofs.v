(** Proofs about compute_accumulated_effect (C05, C06). *)
From Verif Require Import Base Numpy Spec NumpyFacts Utils UtilsProofs.
Open Scope Qc_scope.

(** generic step sum: [w] is the identity or the square *)
Definition gsum (w : Qc -> Qc) (l es : list Qc) (x : Qc) : Qc :=
  sumq (map (fun k => es@k * w (clip l@k l@(S k) x - l@k)) (seq 0 (length l - 1))).

Definition wsq (square : bool) (d : Qc) : Qc := if square then d * d else d.

Lemma gsum_id l es x : gsum (wsq false) l es x = step_integral l es x. Proof. reflexivity. Qed.
Lemma gsum_sq l es x : gsum (wsq true) l es x = step_integral_sq l es x. Proof. reflexivity. Qed.

Lemma Qcmax_cases a b : (a <= b /\ Qcmax a b = b) \/ (b < a /\ Qcmax a b = a).
Proof. unfold Qcmax. qcase; auto. Qed.
Lemma Qcmin_cases a b : (a <= b /\ Qcmin a b = a) \/ (b < a /\ Qcmin a b = b).
Proof. unfold Qcmin. qcase; auto. Qed.
Ltac qclip := unfold clip;
  repeat match goal with
  | |- context [Qcmax ?a ?b] => destruct (Qcmax_cases a b) as [[? ->]|[? ->]]
  end;
  repeat match goal with
  | |- context [Qcmin ?a ?b] => destruct (Qcmin_cases a b) as [[? ->]|[? ->]]
  end; try qlra.

Lemma clip_left a b x : a <= b -> x <= a -> clip a b x = a.
Proof. intros. qclip. Qed.
Lemma clip_right a b x : a <= b -> b <= x -> clip a b x = b.
Proof. intros. qclip. Qed.
Lemma clip_mid a b x : a <= x -> x <= b -> clip a b x = x.
Proof. intros. qclip. Qed.

Lemma diffs_length l : length (diffs l) = (length l - 1)%nat.
Proof. unfold diffs. rewrite map_length. apply combine_tl_length. Qed.
Lemma diffs_nth l k : (S k < length l)%nat -> (diffs l)@k = l@(S k) - l@k.
Proof.
  intros H. unfold diffs. rewrite (nth_map_in _ _ _ (0,0)) by (rewrite combine_tl_length; lia).
  rewrite diff_nth_gen by exact H. reflexivity.
Qed.

Lemma firstn_seq_map {A} (f : nat -> A) j n : (j <= n)%nat -> firstn j (map f (seq 0 n)) = map f (seq 0 j).
Proof.
  intros H. rewrite firstn_map. f_equal.
  replace n with (j + (n - j))%nat by lia. rewrite seq_app, firstn_app, seq_length, Nat.sub_diag. simpl.
  rewrite app_nil_r. apply firstn_all2. rewrite seq_length. lia.
Qed.

Lemma nth_S {A} n (a : A) l d : nth (S n) (a :: l) d = nth n l d. Proof. reflexivity. Qed.

Section acc.
  Context (l es : list Qc) (square : bool).
  Context (Hl : (2 <= length l)%nat) (Hi : increasing l) (He : length es = (length l - 1)%nat).

  Let K := (length l - 1)%nat.
  Let prod := map (fun k => es@k * wsq square (l@(S k) - l@k)) (seq 0 K).

  Lemma w0 : wsq square 0 = 0. Proof. destruct square; simpl; [ring|reflexivity]. Qed.

  Lemma prod_eq : vzip (fun e d => if square then e * (d * d) else e * d) es (diffs l) = Ok prod.
  Proof.
    rewrite vzip_eq by (now rewrite diffs_length). f_equal.
    apply list_ext with 0.
    - unfold prod. rewrite !map_length, combine_length, diffs_length, seq_length. lia.
    - intros k Hk. rewrite map_length, combine_length, diffs_length in Hk.
      rewrite (nth_map_in _ _ _ (0,0)) by (rewrite combine_length, diffs_length; lia).
      rewrite combine_nth by (now rewrite diffs_length). cbn [fst snd].
      unfold prod. rewrite (nth_map_in _ _ _ 0%nat) by (rewrite seq_length; unfold K; lia).
      rewrite nth_seq by (unfold K; lia). rewrite diffs_nth by lia. simpl Nat.add.
      unfold wsq. destruct square; reflexivity.
  Qed.

  Lemma gsum_split x j : (j <= K)%nat ->
    gsum (wsq square) l es x =
    sumq (map (fun k => es@k * wsq square (clip l@k l@(S k) x - l@k)) (seq 0 j)) +
    sumq (map (fun k => es@k * wsq square (clip l@k l@(S k) x - l@k)) (seq j (K - j))).
  Proof.
    intros H. unfold gsum. fold K. replace K with (j + (K - j))%nat at 1 by lia.
    rewrite seq_app, map_app, sumq_app. reflexivity.
  Qed.

  Lemma lim_le i j : (i <= j)%nat -> (j < length l)%nat -> l@i <= l@j.
  Proof. apply increasing_weak; assumption. Qed.

  (** bins entirely left of x contribute fully, bins right of x nothing *)
  Lemma part_left x j : (j <= K)%nat -> (forall k, (k < j)%nat -> l@(S k) <= x) ->
    sumq (map (fun k => es@k * wsq square (clip l@k l@(S k) x - l@k)) (seq 0 j)) = sumq (firstn j prod).
  Proof.
    intros Hj H. unfold prod. rewrite firstn_seq_map by exact Hj. apply sumq_map_ext.
    intros k Hk. apply in_seq in Hk. rewrite clip_right; [reflexivity| |apply H; lia].
    apply lim_le; unfold K in *; lia.
  Qed.
  Lemma part_right x j n : (j + n <= K)%nat -> (forall k, (j <= k < j + n)%nat -> x <= l@k) ->
    sumq (map (fun k => es@k * wsq square (clip l@k l@(S k) x - l@k)) (seq j n)) = 0.
  Proof.
    intros Hj H. rewrite (sumq_map_ext _ (fun _ => 0)).
    - rewrite sumq_const. ring.
    - intros k Hk. apply in_seq in Hk. rewrite clip_left; [|apply lim_le; unfold K in *; lia|apply H; lia].
      replace (l@k - l@k) with 0 by ring. rewrite w0. ring.
  Qed.

  Definition beyond (x : Qc) : Qc := if l@K <=? x then es@(K - 1) * wsq square (Qcmax 0 (x - BIG_M)) else 0.

  Lemma acc_point x :
    let d := digitize1 l x in
    nth d (0 :: 0 :: cumsum prod) 0 +
    (let v := x - nth d (l@0 :: init_ l ++ [BIG_M]) 0 in wsq square (if v <? 0 then 0 else v))
      * nth d (0 :: es ++ [es@(K - 1)]) 0 = gsum (wsq square) l es x + beyond x.
  Proof.
    intros d. pose proof (digitize1_le l x) as Hd. fold d in Hd.
    assert (W : weakly_increasing l) by now apply increasing_weak.
    assert (I : forall i, (i < length l)%nat -> (l@i <= x <-> (i < d)%nat)) by (intros; now apply digitize1_iff).
    assert (LP : length prod = K) by (unfold prod; now rewrite map_length, seq_length).
    destruct d as [|d'] eqn:Ed.
    - (* left of the first limit *)
      assert (Hx : x < l@0) by (apply Qcnot_le_lt; intros C; apply I in C; lia).
      assert (HB : beyond x = 0).
      { unfold beyond. destruct (Qcleb_spec l@K x) as [L|]; [|reflexivity]. apply I in L; unfold K; lia. }
      rewrite HB. simpl nth. rewrite (gsum_split x 0) by lia. simpl (map _ (seq 0 0)).
      rewrite part_right; [simpl; ring|lia|]. intros k Hk.
      assert (l@0 <= l@k) by (apply lim_le; unfold K in *; lia). qlra.
    - destruct (Nat.eq_dec d' K) as [EK|NK].
      + (* right of the last limit *)
        assert (Hx : l@K <= x) by (apply I; unfold K in *; lia).
        unfold beyond. destruct (Qcleb_spec l@K x) as [_|C]; [|qlra].
        rewrite (gsum_split x K) by lia. rewrite Nat.sub_diag. simpl (seq K 0). simpl (map _ []).
        rewrite part_left; [|lia|].
        2:{ intros k Hk. assert (l@(S k) <= l@K) by (apply lim_le; unfold K in *; lia). qlra. }
        subst d'. rewrite !nth_S.
        assert (F : nth K (0 :: cumsum prod) 0 = sumq (firstn K prod)).
        { assert (HK : K = S (K - 1)) by (unfold K; lia). rewrite HK at 1. rewrite nth_S.
          unfold cumsum. rewrite cumsum_from_nth by lia. rewrite <- HK. ring. }
        rewrite F.
        assert (G : nth K (init_ l ++ [BIG_M]) 0 = BIG_M).
        { unfold init_. rewrite app_nth2 by (rewrite removelast_length; unfold K; lia).
          rewrite removelast_length. fold K. now rewrite Nat.sub_diag. }
        rewrite G.
        assert (G' : nth K (es ++ [es@(K - 1)]) 0 = es@(K - 1)).
        { rewrite app_nth2 by (rewrite He; unfold K; lia). rewrite He. fold K. now rewrite Nat.sub_diag. }
        rewrite G'. simpl sumq. unfold Qcmax.
        destruct (Qcltb_spec (x - BIG_M) 0); destruct (Qcleb_spec 0 (x - BIG_M)); try qlra; ring.
      + (* inside bin d' *)
        assert (Hd' : (d' < K)%nat) by (unfold K in *; lia).
        assert (H1 : l@d' <= x) by (apply I; unfold K in *; lia).
        assert (H2 : x < l@(S d')) by (apply Qcnot_le_lt; intros C; apply I in C; unfold K in *; lia).
        assert (HB : beyond x = 0).
        { unfold beyond. destruct (Qcleb_spec l@K x) as [L|]; [|reflexivity]. apply I in L; unfold K in *; lia. }
        rewrite HB. rewrite (gsum_split x d') by lia. rewrite part_left; [|lia|].
        2:{ intros k Hk. assert (l@(S k) <= l@d') by (apply lim_le; unfold K in *; lia). qlra. }
        replace (K - d')%nat with (S (K - S d')) by lia. cbn [seq map]. rewrite sumq_cons.
        rewrite part_right; [|lia|].
        2:{ intros k Hk. assert (l@(S d') <= l@k) by (apply lim_le; unfold K in *; lia). qlra. }
        rewrite !nth_S.
        assert (F : nth d' (0 :: cumsum prod) 0 = sumq (firstn d' prod)).
        { destruct d' as [|d'']; [reflexivity|]. rewrite nth_S. unfold cumsum. rewrite cumsum_from_nth by lia. ring. }
        rewrite F.
        assert (G : nth d' (init_ l ++ [BIG_M]) 0 = l@d').
        { unfold init_. rewrite app_nth1 by (rewrite removelast_length; unfold K in *; lia).
          apply nth_removelast. unfold K in *; lia. }
        rewrite G.
        assert (G' : nth d' (es ++ [es@(K - 1)]) 0 = es@d') by (apply app_nth1; unfold K in *; lia).
        rewrite G'. rewrite clip_mid by qlra. cbv zeta.
        destruct (Qcltb_spec (x - l@d') 0); [qlra|]. ring.
  Qed.

  Lemma compute_accumulated_effect_full xs :
    compute_accumulated_effect xs l es (diffs l) square =
    Ok (map (fun x => gsum (wsq square) l es x + beyond x) xs).
  Proof.
    unfold compute_accumulated_effect.
    assert (W : weakly_increasing l) by now apply increasing_weak.
    rewrite digitize_ok by exact W. unfold bind at 1. rewrite prod_eq. unfold bind at 1.
    assert (LP : length prod = K) by (unfold prod; now rewrite map_length, seq_length).
    assert (Bd : forall i, In i (map (digitize1 l) xs) -> (i < K + 2)%nat).
    { intros i Hin. apply in_map_iff in Hin as (x & <- & _). pose proof (digitize1_le l x). unfold K. lia. }
    rewrite (take_ok _ _ 0).
    2:{ intros i Hin. apply Bd in Hin. simpl. unfold cumsum. rewrite cumsum_from_length. lia. }
    unfold bind at 1. rewrite (getn_ok l 0 0) by lia. unfold bind at 1.
    rewrite (take_ok _ _ 0).
    2:{ intros i Hin. apply Bd in Hin. simpl. rewrite app_length. unfold init_. rewrite removelast_length. simpl. unfold K in *. lia. }
    unfold bind at 1.
    assert (Ne : es <> []) by (intros ->; simpl in He; lia).
    rewrite (getz_last es 0 Ne). unfold bind at 1.
    rewrite (take_ok _ _ 0).
    2:{ intros i Hin. apply Bd in Hin. simpl. rewrite app_length. simpl. unfold K in *. lia. }
    unfold bind at 1.
    rewrite !map_map. rewrite combine_map_r, map_map. f_equal.
    rewrite He. fold K.
    set (ds := fun x : Qc => let v := x - nth (digitize1 l x) (l@0 :: init_ l ++ [BIG_M]) 0 in if v <? 0 then 0 else v).
    transitivity (map (fun p : Qc * (Qc * Qc) => fst p + fst (snd p) * snd (snd p))
      (combine (map (fun x => nth (digitize1 l x) (0 :: 0 :: cumsum prod) 0) xs)
        (combine (map (fun x => wsq square (ds x)) xs)
           (map (fun x => nth (digitize1 l x) (0 :: es ++ [es@(K - 1)]) 0) xs)))).
    - f_equal. f_equal. f_equal. destruct square; rewrite ?map_map; reflexivity.
    - rewrite combine_self_map, combine_self_map, map_map. apply map_ext. intros x. cbn [fst snd].
      unfold ds. cbn [fst snd]. rewrite <- (acc_point x). reflexivity.
  Qed.
End acc.

(** C05 *)
Lemma accumulated_effect_exact l es xs :
  (2 <= length l)%nat -> increasing l -> length es = (length l - 1)%nat ->
  compute_accumulated_effect xs l es (diffs l) false =
  Ok (map (fun x => step_integral l es x +
        (if l@(length l - 1) <=? x then es@(length l - 2) * Qcmax 0 (x - BIG_M) else 0)) xs).
Proof.
  intros Hl Hi He. rewrite (compute_accumulated_effect_full l es false Hl Hi He). f_equal.
  apply map_ext. intros x. rewrite gsum_id. f_equal. unfold beyond.
  replace (length l - 1 - 1)%nat with (length l - 2)%nat by lia. reflexivity.
Qed.

Lemma accumulated_effect_below_bigM l es xs :
  (2 <= length l)%nat -> increasing l -> length es = (length l - 1)%nat ->
  (forall x, In x xs -> x <= BIG_M \/ x < l@(length l - 1)) ->
  compute_accumulated_effect xs l es (diffs l) false = Ok (map (step_integral l es) xs).
Proof.
  intros Hl Hi He Hx. rewrite accumulated_effect_exact by assumption. f_equal.
  apply map_ext_in. intros x Hin. destruct (Qcleb_spec l@(length l - 1) x) as [L|L]; [|ring].
  destruct (Hx x Hin) as [Hb|Hb]; [|qlra].
  unfold Qcmax. destruct (Qcleb_spec 0 (x - BIG_M)); [|ring].
  assert (x = BIG_M) by qlra. subst x. ring.
Qed.

Lemma accumulated_effect_sq_below_bigM l es xs :
  (2 <= length l)%nat -> increasing l -> length es = (length l - 1)%nat ->
  (forall x, In x xs -> x <= BIG_M \/ x < l@(length l - 1)) ->
  compute_accumulated_effect xs l es (diffs l) true = Ok (map (step_integral_sq l es) xs).
Proof.
  intros Hl Hi He Hx. rewrite (compute_accumulated_effect_full l es true Hl Hi He). f_equal.
  apply map_ext_in. intros x Hin. rewrite gsum_sq. unfold beyond.
  destruct (Qcleb_spec l@(length l - 1) x) as [L|L]; [|ring].
  destruct (Hx x Hin) as [Hb|Hb]; [|qlra].
  unfold Qcmax, wsq. destruct (Qcleb_spec 0 (x - BIG_M)); [|ring].
  assert (x = BIG_M) by qlra. subst x. ring.
Qed.

(** C06: analytic shape of [step_integral] *)
Lemma step_integral_left l es x : increasing l -> x <= l@0 -> step_integral l es x = 0.
Proof.
  intros Hi Hx. unfold step_integral. rewrite (sumq_map_ext _ (fun _ => 0)); [rewrite sumq_const; ring|].
  intros k Hk. apply in_seq in Hk.
  assert (l@0 <= l@k) by (apply (increasing_weak l Hi); lia).
  assert (l@k <= l@(S k)) by (apply (increasing_weak l Hi); lia).
  rewrite clip_left by qlra. ring.
Qed.
Lemma step_integral_right l es x : increasing l -> (2 <= length l)%nat -> l@(length l - 1) <= x ->
  step_integral l es x = sumq (map (fun k => es@k * (l@(S k) - l@k)) (seq 0 (length l - 1))).
Proof.
  intros Hi Hl Hx. unfold step_integral. apply sumq_map_ext.
  intros k Hk. apply in_seq in Hk.
  assert (l@(S k) <= l@(length l - 1)) by (apply (increasing_weak l Hi); lia).
  assert (l@k <= l@(S k)) by (apply (increasing_weak l Hi); lia).
  rewrite clip_right by qlra. reflexivity.
Qed.
Lemma clip_mono a b x y : a <= b -> x <= y -> clip a b x <= clip a b y.
Proof. intros. qclip. Qed.
Lemma clip_lip a b x y : a <= b -> x <= y -> clip a b y - clip a b x <= y - x.
Proof. intros. qclip. Qed.

Lemma step_integral_mono l es x y : increasing l -> length es = (length l - 1)%nat ->
  (forall e, In e es -> 0 <= e) -> x <= y -> step_integral l es x <= step_integral l es y.
Proof.
  intros Hi He Hp Hxy. unfold step_integral. apply sumq_le. intros k Hk. apply in_seq in Hk.
  apply Qcmul_le_compat_l; [apply Hp, nth_In; lia|].
  assert (l@k <= l@(S k)) by (apply (increasing_weak l Hi); lia).
  pose proof (clip_mono l@k l@(S k) x y ltac:(assumption) Hxy). qlra.
Qed.

(** total length of the clipped parts between x <= y is at most y - x *)
Lemma clip_total l x y n : increasing l -> (n < length l)%nat -> x <= y ->
  sumq (map (fun k => clip l@k l@(S k) y - clip l@k l@(S k) x) (seq 0 n)) = clip l@0 l@n y - clip l@0 l@n x.
Proof.
  intros Hi Hn Hxy. induction n as [|n IH].
  - simpl. qclip.
  - rewrite seq_S, map_app, sumq_app, IH by lia. simpl.
    assert (l@0 <= l@n) by (apply (increasing_weak l Hi); lia).
    assert (l@n <= l@(S n)) by (apply (increasing_weak l Hi); lia).
    set (a := l@0) in *. set (b := l@n) in *. set (c := nth (S n) l 0) in *. clearbody a b c. clear IH.
    qclip.
Qed.

Lemma Qcabs_nonneg_le a m : - m <= a -> a <= m -> Qcabs a <= m.
Proof. intros. unfold Qcabs. qcase; qlra. Qed.
Lemma Qcabs_bounds a : - Qcabs a <= a <= Qcabs a.
Proof. unfold Qcabs. qcase; split; qlra. Qed.

Lemma step_integral_lipschitz l es M x y : increasing l -> (2 <= length l)%nat -> length es = (length l - 1)%nat ->
  (forall e, In e es -> Qcabs e <= M) -> x <= y ->
  Qcabs (step_integral l es y - step_integral l es x) <= M * (y - x).
Proof.
  intros Hi Hl He HM Hxy. unfold step_integral. rewrite <- sumq_map_sub.
  assert (HM0 : 0 <= M).
  { destruct es as [|e es]; [simpl in He; lia|]. specialize (HM e (or_introl eq_refl)).
    pose proof (Qcabs_bounds e). qlra. }
  pose proof (clip_total l x y (length l - 1) Hi ltac:(lia) Hxy) as T.
  assert (Hc : clip l@0 l@(length l - 1) y - clip l@0 l@(length l - 1) x <= y - x).
  { apply clip_lip; [|exact Hxy]. apply (increasing_weak l Hi); lia. }
  apply Qcle_trans with (M * sumq (map (fun k => clip l@k l@(S k) y - clip l@k l@(S k) x) (seq 0 (length l - 1)))).
  2:{ rewrite T. apply Qcmul_le_compat_l; assumption. }
  clear T Hc. rewrite <- sumq_map_mul.
  assert (D : forall k, In k (seq 0 (length l - 1)) ->
     - (M * (clip l@k l@(S k) y - clip l@k l@(S k) x)) <=
       es@k * (clip l@k l@(S k) y - l@k) - es@k * (clip l@k l@(S k) x - l@k) <=
       M * (clip l@k l@(S k) y - clip l@k l@(S k) x)).
  { intros k Hk. apply in_seq in Hk.
    assert (l@k <= l@(S k)) by (apply (increasing_weak l Hi); lia).
    assert (P : clip l@k l@(S k) x <= clip l@k l@(S k) y) by (apply clip_mono; assumption).
    assert (Hm : Qcabs es@k <= M) by (apply HM, nth_In; lia).
    pose proof (Qcabs_bounds es@k) as [B1 B2].
    set (cx := clip l@k l@(S k) x) in *. set (cy := clip l@k l@(S k) y) in *. set (lk := l@k) in *. set (e := es@k) in *.
    clearbody cx cy lk e.
    replace (e * (cy - lk) - e * (cx - lk)) with (e * (cy - cx)) by ring.
    assert (Hd : 0 <= cy - cx) by qlra.
    assert (U1 : e <= M) by qlra. assert (U2 : - M <= e) by qlra.
    pose proof (Qcmul_le_compat_r e M (cy - cx) Hd U1) as V1.
    pose proof (Qcmul_le_compat_r (- M) e (cy - cx) Hd U2) as V2.
    replace (- (M * (cy - cx))) with (- M * (cy - cx)) by ring. split; assumption. }
  apply Qcabs_nonneg_le.
  - replace (- sumq (map (fun k => M * (clip l@k l@(S k) y - clip l@k l@(S k) x)) (seq 0 (length l - 1))))
      with (sumq (map (fun k => - (M * (clip l@k l@(S k) y - clip l@k l@(S k) x))) (seq 0 (length l - 1)))).
    + apply sumq_le. intros k Hk. now apply D.
    + rewrite (sumq_map_ext _ (fun k => (-(1)) * (M * (clip l@k l@(S k) y - clip l@k l@(S k) x)))) by (intros; ring).
      rewrite sumq_map_mul. ring.
  - apply sumq_le. intros k Hk. now apply D.
Qed.
