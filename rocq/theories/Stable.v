(** Perturbing the model (C97): means and bin effects are non-expansive. *)
From Verif Require Import Base Numpy Spec ALESpec NumpyFacts Utils UtilsProofs FillProofs AccProofs ParamsProofs BinProofs ALESpecFacts ALEDefProofs LawsProofs HelpersProofs.
Open Scope Qc_scope.
Open Scope list_scope.

Lemma filled_exists x y z : filled x y -> length z = length x -> (forall j, nth j x None = None <-> nth j z None = None) -> exists w, filled z w.
Proof.
  intros (_ & (j & v & Hj) & _) L H. destruct (fill_nans_ok_or_raise z) as [(w & E)|E]; [exists w; now apply fill_filled|].
  pose proof (proj1 (fill_nans_raise_iff z) E j) as N. apply H in N. congruence.
Qed.
Lemma bin_means_exists l {I} (B : nat -> list I) (s1 s3 : nat -> I -> Qc) b1 :
  bin_means l (fun k => map (s1 k) (B k)) b1 -> exists b3, bin_means l (fun k => map (s3 k) (B k)) b3.
Proof.
  intros H. unfold bin_means in *. eapply filled_exists; [exact H|now rewrite !map_length|]. intros j.
  destruct (Nat.lt_ge_cases j (length l - 1)) as [L|L].
  - rewrite (nth_seq_map (fun k => mean_of (map (s1 k) (B k)))), (nth_seq_map (fun k => mean_of (map (s3 k) (B k)))) by exact L. destruct (B j); simpl; split; congruence.
  - rewrite !nth_overflow by (rewrite map_length, seq_length; lia). tauto.
Qed.
(** The curves of two sets of slopes that differ by at most [M] differ by a curve of slope at most [M]. *)
Lemma curves_close l {I} (B : nat -> list I) (s1 s2 : nat -> I -> Qc) b1 b2 M x y : increasing l -> (2 <= length l)%nat ->
  bin_means l (fun k => map (s1 k) (B k)) b1 -> bin_means l (fun k => map (s2 k) (B k)) b2 ->
  (forall k i, (k < length l - 1)%nat -> In i (B k) -> Qcabs (s1 k i - s2 k i) <= M) -> x <= y ->
  Qcabs ((step_integral l b1 y - step_integral l b1 x) - (step_integral l b2 y - step_integral l b2 x)) <= M * (y - x).
Proof.
  intros Il L2 H1 H2 HM XY. set (s3 := fun k i => 1 * s1 k i + (- (1)) * s2 k i).
  destruct (bin_means_exists l B s1 s3 b1 H1) as (b3 & H3).
  assert (E : forall k, (k < length l - 1)%nat -> b3@k = 1 * b1@k + (- (1)) * b2@k) by (apply (bin_means_linear 1 (- (1)) l B s1 s2 s3); auto).
  pose proof (bin_means_length _ _ _ H3) as L3.
  replace (_ - _) with (step_integral l b3 y - step_integral l b3 x) by (rewrite !(step_integral_linear l 1 (- (1)) b1 b2 b3) by exact E; ring).
  apply step_integral_lipschitz; auto. intros e He. apply (In_nth _ _ 0) in He as (k & Hk & <-).
  assert (Q : - M <= b3@k <= M).
  { apply (bin_means_between _ _ _ (-M) M H3); [|lia]. intros q Hq v Hv. apply in_map_iff in Hv as (i & <- & Hi). pose proof (HM q i Hq Hi) as A. pose proof (Qcabs_bounds (s1 q i - s2 q i)) as Bd. replace (s3 q i) with (s1 q i - s2 q i) by (unfold s3; ring). split; qlra. }
  apply Qcabs_nonneg_le; apply Q.
Qed.
Lemma around_increasing u l : increasing u -> (2 <= length u)%nat -> around u l -> increasing l.
Proof.
  intros IU L2 (LL & A0 & AM & AE). assert (U : forall i, (S i < length u)%nat -> u@i < u@(S i)) by (intros i Hi; apply IU; lia).
  assert (HP : forall a, 0 < a -> 0 < a / Q2Qc 2) by (intros a Ha; apply Qcdiv_lt_0; [exact Ha|reflexivity]).
  assert (HF : forall a b, (a + b) / Q2Qc 2 = a + (b - a) / Q2Qc 2) by (intros a b; replace (Q2Qc 2) with (1 + 1) by (apply Qc_is_canon; reflexivity); field; discriminate).
  assert (HG : forall a b, (a + b) / Q2Qc 2 = b - (b - a) / Q2Qc 2) by (intros a b; replace (Q2Qc 2) with (1 + 1) by (apply Qc_is_canon; reflexivity); field; discriminate).
  (* u_i lies strictly between l_i and l_{i+1} *)
  assert (LO : forall i, (i < length u)%nat -> l@i < u@i).
  { intros [|i] Hi; [rewrite A0; pose proof (HP (u@1 - u@0) ltac:(pose proof (U 0%nat ltac:(lia)); qlra)); qlra|].
    rewrite AM by exact Hi. rewrite HG. pose proof (U i Hi). pose proof (HP (u@(S i) - u@i) ltac:(qlra)). qlra. }
  assert (UP : forall i, (i < length u)%nat -> u@i < l@(S i)).
  { intros i Hi. destruct (Nat.eq_dec (S i) (length u)) as [E|N].
    - rewrite E, AE. replace (length u - 1)%nat with i by lia. replace (length u - 2)%nat with (i - 1)%nat by lia.
      pose proof (U (i - 1)%nat ltac:(lia)) as Q. replace (S (i - 1)) with i in Q by lia. pose proof (HP (u@i - u@(i - 1)) ltac:(qlra)). qlra.
    - rewrite AM by lia. rewrite HF. pose proof (U i ltac:(lia)). pose proof (HP (u@(S i) - u@i) ltac:(qlra)). qlra. }
  apply increasing_adj. intros i Hi. pose proof (LO i ltac:(lia)). pose proof (UP i ltac:(lia)). qlra.
Qed.
Lemma fixed_binning_increasing n cl xs lo hi l : (1 <= n)%nat -> lo < hi -> fixed_binning n cl xs lo hi l -> increasing l /\ (2 <= length l)%nat.
Proof.
  intros Hn LH (u & (IU & _) & [((L2 & _) & A)|(_ & LL & EW)]).
  - split; [eapply around_increasing; eauto|]. destruct A as (-> & _). lia.
  - split; [|lia]. apply increasing_adj. intros i Hi. rewrite !EW by lia. apply grid_lt; auto; lia.
Qed.
Lemma widened_increasing l l' : increasing l -> (2 <= length l)%nat -> widened l l' -> increasing l' /\ (2 <= length l')%nat.
Proof.
  intros I L2 (W1 & W2 & W3). split; [|lia]. apply increasing_adj. intros i Hi. rewrite W1 in Hi. rewrite (W2 i) by lia.
  pose proof (I i (S i) ltac:(lia) ltac:(lia)) as Q. assert (0 < Q2Qc (1 # 100000000)) by reflexivity.
  destruct (Nat.eq_dec (S i) (length l - 1)) as [E|N]; [rewrite E in *; rewrite W3; qlra|rewrite W2 by lia; exact Q].
Qed.
Lemma mean_close {A} (a b : A -> Qc) Z M : Z <> [] -> (forall r, In r Z -> Qcabs (a r - b r) <= M) -> Qcabs (mean (map a Z) - mean (map b Z)) <= M.
Proof.
  intros NZ H. assert (L : 0 < qn (length Z)) by (apply qn_pos; destruct Z; [congruence|simpl; lia]).
  assert (E : mean (map a Z) - mean (map b Z) = mean (map (fun r => a r - b r) Z)).
  { unfold mean. rewrite !map_length, sumq_map_sub. field. intros E. rewrite E in L. discriminate. }
  rewrite E. assert (B : - M <= mean (map (fun r => a r - b r) Z) /\ mean (map (fun r => a r - b r) Z) <= M).
  { assert (NE : map (fun r => a r - b r) Z <> []) by (intros Q; apply map_eq_nil in Q; congruence).
    split.
    - apply mean_ge; [exact NE|]. intros e He. apply in_map_iff in He as (r & <- & Hr). pose proof (H r Hr). pose proof (Qcabs_bounds (a r - b r)). qlra.
    - assert (Q : - M <= mean (map (fun r => - (a r - b r)) Z)).
      { apply mean_ge; [intros Q; apply map_eq_nil in Q; congruence|]. intros e He. apply in_map_iff in He as (r & <- & Hr). pose proof (H r Hr). pose proof (Qcabs_bounds (a r - b r)). qlra. }
      assert (N : mean (map (fun r => - (a r - b r)) Z) = - mean (map (fun r => a r - b r) Z)).
      { unfold mean. rewrite !map_length. rewrite (sumq_map_ext _ (fun r => (- (1)) * (a r - b r))) by (intros; ring). rewrite sumq_map_mul. field. intros E2. rewrite E2 in L. discriminate. }
      rewrite N in Q. qlra. }
  apply Qcabs_nonneg_le; apply B.
Qed.
Lemma around_last u l : increasing u -> (2 <= length u)%nat -> around u l -> forall x, In x u -> x < l@(length l - 1).
Proof.
  intros IU L2 (LL & _ & _ & AE) x Hx. apply (In_nth u x 0) in Hx as (i & Hi & <-). rewrite LL. simpl. rewrite Nat.sub_0_r, AE.
  assert (Q : 0 < (u@(length u - 1) - u@(length u - 2)) / Q2Qc 2).
  { apply Qcdiv_lt_0; [|reflexivity]. pose proof (IU (length u - 2)%nat (length u - 1)%nat ltac:(lia) ltac:(lia)). qlra. }
  destruct (Nat.eq_dec i (length u - 1)) as [->|N]; [qlra|]. pose proof (IU i (length u - 1)%nat ltac:(lia) ltac:(lia)). qlra.
Qed.
Lemma binning_last n cl xs lo hi l l' x : (1 <= n)%nat -> fixed_binning n cl xs lo hi l -> widened l l' -> In x xs -> x <= hi -> x < l'@(length l' - 1).
Proof.
  intros Hn (u & (IU & MU) & C) (W1 & W2 & W3) Hx Hh. rewrite W1, W3. assert (0 < Q2Qc (1 # 100000000)) by reflexivity.
  destruct C as [((L2 & _) & A)|(_ & LL & EW)].
  - apply MU in Hx. pose proof (around_last u l IU L2 A x Hx). qlra.
  - rewrite LL. simpl. rewrite Nat.sub_0_r, EW by lia. rewrite grid_K by exact Hn. qlra.
Qed.
