(** Lemmas for the laws of the ALE and RHALE curves (C73-C79). *)
From Verif Require VisProofs.
From Verif Require Import Base Numpy Spec ALESpec NumpyFacts Utils UtilsProofs FillProofs AccProofs LocalProofs ParamsProofs
  Helpers Integrate HelpersProofs Binning BinProofs GreedyProofs DPProofs LimitsProofs GlobalALE ALEState ALEHist ALEFit ALEProps ALESuccess ALECurves
  ALESpecFacts ALEDefProofs.
Open Scope Qc_scope.
Open Scope list_scope.

Lemma quot_mono a b c d : (0 < b)%Z -> (0 < d)%Z -> (a * d <= c * b)%Z -> (Z.quot a b <= Z.quot c d)%Z.
Proof.
  intros Hb Hd H.
  destruct (Z_le_gt_dec 0 a) as [Pa|Na].
  - assert (Pc : (0 <= c)%Z) by nia. rewrite !Z.quot_div_nonneg by lia.
    apply Z.div_le_lower_bound; [lia|]. pose proof (Z.mul_div_le a b Hb). nia.
  - assert (Q1 : (Z.quot a b <= 0)%Z).
    { replace a with (- - a)%Z by lia. rewrite (Z.quot_opp_l (-a)) by lia. pose proof (Z.quot_pos (-a) b ltac:(lia) ltac:(lia)). lia. }
    destruct (Z_le_gt_dec 0 c) as [Pc|Nc].
    + pose proof (Z.quot_pos c d Pc Hd). lia.
    + replace a with (- - a)%Z by lia. replace c with (- - c)%Z by lia. rewrite (Z.quot_opp_l (-a)), (Z.quot_opp_l (-c)) by lia. apply -> Z.opp_le_mono.
      rewrite !Z.quot_div_nonneg by lia. apply Z.div_le_lower_bound; [lia|]. pose proof (Z.mul_div_le (-c) d Hd). nia.
Qed.
Lemma store_mono d v w : v <= w -> store d v <= store d w.
Proof.
  destruct d; simpl; [auto|]. intros H. unfold qtrunc. apply (proj1 (qz_le _ _)). apply quot_mono; [reflexivity|reflexivity|]. exact H.
Qed.

Lemma offset_shift_zero c f ce g : (forall x, g x = 0) -> shift_of c f ce g = 0.
Proof.
  intros Z. destruct ce; cbn [shift_of]; [reflexivity|apply Z|].
  apply mean_const; [intros E; apply (center_grid_nonempty c f); now apply map_eq_nil in E|]. intros e He. apply in_map_iff in He as (x & <- & _). apply Z.
Qed.

(** slopes of instances in the same bin *)
Lemma in_slopes d g f l X lo hi k v : In v (map (slope d g f l k) (bin_of l f (rows (mkData d 0 (filter (in_range lo hi f) X))) k)) ->
  exists r, In r X /\ v = slope d g f l k r.
Proof. intros H. apply in_map_iff in H as (r & <- & Hr). apply filter_In in Hr as (Hr & _). simpl in Hr. apply filter_In in Hr as (Hr & _). eauto. Qed.
Lemma kept_in c lo hi f r : In r (rows (kept c lo hi f)) -> In r (rows (c_data c)).
Proof. unfold kept. cbn [rows]. intros H. now apply filter_In in H as (H & _). Qed.
Lemma slopes_in c d g f l lo hi k v : In v (map (slope d g f l k) (bin_of l f (rows (kept c lo hi f)) k)) ->
  exists r, In r (rows (c_data c)) /\ v = slope d g f l k r.
Proof. intros H. apply in_map_iff in H as (r & <- & Hr). unfold bin_of in Hr. apply filter_In in Hr as (Hr & _). exists r. split; [eapply kept_in; eauto|reflexivity]. Qed.
Lemma slopes_pairs_in c (E : list (list Qc)) f l lo hi k v :
  In v (map (fun q => (snd q)@f) (bin_pairs l f (filter (fun q => in_range lo hi f (fst q)) (combine (rows (c_data c)) E)) k)) -> exists e, In e E /\ v = e@f.
Proof.
  intros H. apply in_map_iff in H as ((r & e) & <- & Hr). unfold bin_pairs in Hr. apply filter_In in Hr as (Hr & _). apply filter_In in Hr as (Hr & _).
  apply in_combine_r in Hr. exists e. auto.
Qed.
Lemma curve_mono l be s x y : (2 <= length l)%nat -> increasing l -> length be = (length l - 1)%nat -> (forall k, (k < length l - 1)%nat -> 0 <= be@k) -> x <= y ->
  acc_curve l be x - s <= acc_curve l be y - s.
Proof. intros L2 I LB P H. pose proof (acc_curve_mono l be x y L2 I LB P H). qlra. Qed.

(** equal-width bins with the last limit moved *)
Lemma grid_incr lo hi n l l' : lo < hi -> (1 <= n)%nat -> equal_width lo hi n l -> widened l l' ->
  increasing l' /\ length l' = S n /\ (forall i, (i < n)%nat -> l'@i = grid lo hi n i) /\ l'@n = hi + Q2Qc (1 # 100000000).
Proof.
  intros LH Hn (LL & G) (WL & WI & WN). rewrite LL in *. replace (S n - 1)%nat with n in WN by lia.
  assert (A : forall i, (i < n)%nat -> l'@i = grid lo hi n i) by (intros i Hi; rewrite WI by lia; apply G; lia).
  assert (B : l'@n = hi + Q2Qc (1 # 100000000)) by (rewrite WN, G by lia; now rewrite grid_K).
  split; [|auto]. intros i j Hij Hj. rewrite WL in Hj. rewrite (A i) by lia.
  destruct (Nat.eq_dec j n) as [->|N].
  - rewrite B. pose proof (grid_le lo hi n i n LH Hn ltac:(lia)) as Q. rewrite grid_K in Q by exact Hn.
    assert (0 < Q2Qc (1 # 100000000)) by reflexivity. qlra.
  - rewrite (A j) by lia. now apply grid_lt.
Qed.
(** the integral up to the grid points *)
Lemma grid_integral lo hi n l l' be (a : Qc -> Qc) : lo < hi -> (2 <= n)%nat -> equal_width lo hi n l -> widened l l' ->
  (forall k, (k < n)%nat -> be@k = (a l'@(S k) - a l'@k) / (l'@1 - l'@0)) ->
  forall p, (p <= n)%nat -> step_integral l' be (grid lo hi n p) = a l'@p - a l'@0.
Proof.
  intros LH Hn EW W HB p Hp. destruct (grid_incr lo hi n l l' LH ltac:(lia) EW W) as (I & LL & A & B).
  set (w := (hi - lo) / qn n). assert (Ww : l'@1 - l'@0 = w) by (rewrite !A by lia; apply grid_width; lia).
  assert (WP : 0 < w). { rewrite <- Ww. assert (l'@0 < l'@1) by (apply I; lia). qlra. }
  assert (WN : w <> 0) by (intros E; rewrite E in WP; discriminate).
  assert (INV : forall q, (q < n)%nat -> step_integral l' be (grid lo hi n q) = a l'@q - a l'@0).
  { intros q Hq. rewrite <- (A q Hq). rewrite step_integral_at by (auto; lia).
    rewrite <- (telescope (fun j => a l'@j) q). apply sumq_map_ext. intros j Hj. apply in_seq in Hj.
    rewrite HB by lia. rewrite Ww. replace (l'@(S j) - l'@j) with w by (rewrite !A by lia; symmetry; apply grid_width; lia). field. exact WN. }
  destruct (Nat.eq_dec p n) as [->|N]; [|apply INV; lia].
  assert (G1 : l'@(n - 1) = grid lo hi n (n - 1)) by (apply A; lia). assert (Sn : S (n - 1) = n) by lia.
  assert (Q : step_integral l' be (grid lo hi n n) - step_integral l' be (grid lo hi n (n - 1)) = be@(n - 1) * (grid lo hi n n - grid lo hi n (n - 1))).
  { assert (g : grid lo hi n (n - 1) < grid lo hi n n) by (apply grid_lt; auto; lia).
    assert (E : 0 < Q2Qc (1 # 100000000)) by reflexivity. assert (GK : grid lo hi n n = hi) by (apply grid_K; lia).
    apply VisProofs.step_integral_in_bin; auto; try lia; rewrite ?Sn, ?G1, ?B, ?GK; qlra. }
  replace (grid lo hi n n - grid lo hi n (n - 1)) with w in Q by (symmetry; rewrite <- Sn at 2; apply grid_width; lia).
  rewrite (INV (n - 1)%nat ltac:(lia)) in Q. rewrite HB, Ww, Sn in Q by lia.
  assert (Q2 : step_integral l' be (grid lo hi n n) = a l'@(n - 1) - a l'@0 + (a l'@n - a l'@(n - 1)) / w * w) by (rewrite <- Q; ring).
  rewrite Q2. field. exact WN.
Qed.

(** pairs as a list of indices *)
Lemma combine_idx {A B} (d : A) (e : B) (a : list A) (b : list B) : length b = length a -> combine a b = map (fun i => (nth i a d, nth i b e)) (seq 0 (length a)).
Proof.
  revert b. induction a as [|x a IH]; intros [|y b] L; try discriminate; [reflexivity|].
  cbn [combine length seq map nth]. f_equal. rewrite <- seq_shift, map_map. cbn [nth]. apply IH. now injection L.
Qed.
Lemma pairs_idx (X E : list (list Qc)) (f : nat) (p : list Qc -> bool) l k : length E = length X ->
  map (fun q => (snd q)@f) (bin_pairs l f (filter (fun q => p (fst q)) (combine X E)) k)
  = map (fun i => (nth i E [])@f) (filter (fun i => in_bin l k (nth i X [])@f) (filter (fun i => p (nth i X [])) (seq 0 (length X)))).
Proof. intros L. rewrite (combine_idx [] [] X E L). unfold bin_pairs. rewrite filter_map_comm. rewrite filter_map_comm. rewrite map_map. reflexivity. Qed.
Lemma fst_idx (X E : list (list Qc)) (f : nat) (p : list Qc -> bool) : length E = length X ->
  map (fun q => (fst q)@f) (filter (fun q => p (fst q)) (combine X E)) = map (fun r => r@f) (filter p X).
Proof.
  revert E. induction X as [|x X IH]; intros [|e E] L; try discriminate; [reflexivity|]. simpl. destruct (p x); simpl; [f_equal|]; apply IH; now injection L.
Qed.
(** bin effects that are linear combinations *)
Lemma bin_means_linear al be l {I} (B : nat -> list I) (s1 s2 s3 : nat -> I -> Qc) b1 b2 b3 :
  (forall k i, In i (B k) -> s3 k i = al * s1 k i + be * s2 k i) ->
  bin_means l (fun k => map (s1 k) (B k)) b1 -> bin_means l (fun k => map (s2 k) (B k)) b2 -> bin_means l (fun k => map (s3 k) (B k)) b3 ->
  forall i, (i < length l - 1)%nat -> b3@i = al * b1@i + be * b2@i.
Proof.
  intros HS MM1 MM2 MM3 i Hi. unfold bin_means in MM1, MM2, MM3.
  set (x1 := map _ _) in MM1. set (x2 := map _ _) in MM2. set (x3 := map _ _) in MM3.
  assert (LX1 : length x1 = (length l - 1)%nat) by (unfold x1; now rewrite map_length, seq_length).
  assert (LX2 : length x2 = (length l - 1)%nat) by (unfold x2; now rewrite map_length, seq_length).
  refine (filled_linear al be x1 x2 b1 b2 b3 _ _ MM1 MM2 _ i _); [congruence| | |lia].
  - intros j. destruct (Nat.lt_ge_cases j (length l - 1)) as [L|L].
    + unfold x1, x2. rewrite (nth_seq_map (fun k => mean_of (map (s1 k) (B k)))), (nth_seq_map (fun k => mean_of (map (s2 k) (B k)))) by exact L.
      destruct (B j); simpl; split; congruence.
    + rewrite !nth_overflow by lia. tauto.
  - match goal with |- filled ?a _ => replace a with x3; [exact MM3|] end. unfold x1, x2, x3.
    rewrite combine_map2. apply map_ext. intros j. specialize (HS j). destruct (B j) as [|r rs]; [reflexivity|].
    set (C := r :: rs) in *. assert (MO : forall s : I -> Qc, mean_of (map s C) = Some (mean (map s C))) by (intros s; reflexivity). clearbody C.
    rewrite !MO. cbn [olin]. f_equal. unfold mean. rewrite !map_length.
    rewrite (sumq_map_ext _ (fun r0 => al * s1 j r0 + be * s2 j r0)) by (intros r0 H0; now apply HS).
    rewrite sumq_map_add, !sumq_map_mul. unfold Qcdiv. ring.
Qed.
