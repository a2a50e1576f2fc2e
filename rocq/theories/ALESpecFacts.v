(** Facts about the specification ALESpec.v itself (used for C71, C73-C76): it determines the result, is linear in the
    slopes and does not depend on the order of the instances. *)
From Verif Require Import Base Spec ALESpec NumpyFacts Utils UtilsProofs AccProofs ParamsProofs.
Open Scope Qc_scope.
Open Scope list_scope.

(** ** Filling *)
Lemma left_or_none x i : (exists a va, nearest_left x i a va) \/ forall j, (j < i)%nat -> nth j x None = None.
Proof.
  induction i as [|i IH]; [right; lia|]. destruct (nth i x None) as [v|] eqn:E.
  - left. exists i, v. split; [lia|]. split; [exact E|]. intros j Hj. lia.
  - destruct IH as [(a & va & A & B & C)|N].
    + left. exists a, va. split; [lia|]. split; [exact B|]. intros j Hj. destruct (Nat.eq_dec j i) as [->|]; [exact E|apply C; lia].
    + right. intros j Hj. destruct (Nat.eq_dec j i) as [->|]; [exact E|apply N; lia].
Qed.
Lemma right_or_none x i : (exists b vb, nearest_right x i b vb) \/ forall j, (i < j)%nat -> nth j x None = None.
Proof.
  assert (G : forall d i, (length x <= i + d)%nat -> (exists b vb, nearest_right x i b vb) \/ forall j, (i < j)%nat -> nth j x None = None).
  { induction d as [|d IH]; intros i0 H.
    - right. intros j Hj. apply nth_overflow. lia.
    - destruct (nth (S i0) x None) as [v|] eqn:E.
      + left. exists (S i0), v. split; [lia|]. split; [exact E|]. intros j Hj. lia.
      + destruct (IH (S i0) ltac:(lia)) as [(b & vb & A & B & C)|N].
        * left. exists b, vb. split; [lia|]. split; [exact B|]. intros j Hj. destruct (Nat.eq_dec j (S i0)) as [->|]; [exact E|apply C; lia].
        * right. intros j Hj. destruct (Nat.eq_dec j (S i0)) as [->|]; [exact E|apply N; lia]. }
  apply (G (length x)). lia.
Qed.

Inductive fill_case (x : list (option Qc)) (i : nat) : Prop :=
| FKnown v : nth i x None = Some v -> fill_case x i
| FGap a va b vb : nth i x None = None -> nearest_left x i a va -> nearest_right x i b vb -> fill_case x i
| FLeft a va : nth i x None = None -> nearest_left x i a va -> (forall j, (i < j)%nat -> nth j x None = None) -> fill_case x i
| FRight b vb : nth i x None = None -> nearest_right x i b vb -> (forall j, (j < i)%nat -> nth j x None = None) -> fill_case x i.
Lemma fill_cases x i : (exists j v, nth j x None = Some v) -> fill_case x i.
Proof.
  intros (j & v & E). destruct (nth i x None) as [w|] eqn:Ei; [eapply FKnown; eauto|].
  destruct (left_or_none x i) as [(a & va & A)|A], (right_or_none x i) as [(b & vb & B)|B].
  - eapply FGap; eauto.
  - eapply FLeft; eauto.
  - eapply FRight; eauto.
  - exfalso. destruct (Nat.lt_trichotomy j i) as [L|[->|L]]; [rewrite A in E by exact L|congruence|rewrite B in E by exact L]; discriminate.
Qed.

Lemma filled_unique x y z : filled x y -> filled x z -> y = z.
Proof.
  intros (L1 & K & A1 & B1 & C1 & D1) (L2 & _ & A2 & B2 & C2 & D2). apply nth_ext with (d := 0) (d' := 0); [congruence|].
  intros i Hi. rewrite L1 in Hi. destruct (fill_cases x i K).
  - now rewrite (A1 i v), (A2 i v).
  - now rewrite (B1 i a va b vb), (B2 i a va b vb).
  - now rewrite (C1 i a va), (C2 i a va).
  - now rewrite (D1 i b vb), (D2 i b vb).
Qed.

(** all the known values satisfy a convex condition: so do all the entries *)
Lemma filled_between x y lo hi : filled x y -> (forall j v, nth j x None = Some v -> lo <= v <= hi) ->
  forall i, (i < length x)%nat -> lo <= y@i <= hi.
Proof.
  intros (L & K & A & B & C & D) H i Hi. destruct (fill_cases x i K) as [v E|a va b vb E N1 N2|a va E N1 N2|b vb E N1 N2].
  - rewrite (A i v E). eapply H; eauto.
  - rewrite (B i a va b vb E N1 N2). destruct N1 as (Q1 & Ea & _), N2 as (Q2 & Eb & _). apply H in Ea, Eb. unfold lerp.
    assert (W : 0 < qn b - qn a) by (pose proof (proj1 (qn_lt a b) ltac:(lia)); qlra).
    assert (T0 : 0 <= (qn i - qn a) / (qn b - qn a)) by (apply Qcdiv_le_0; [pose proof (proj1 (qn_le a i) ltac:(lia)); qlra|exact W]).
    assert (T1 : (qn i - qn a) / (qn b - qn a) <= 1) by (apply Qcdiv_le_iff; [exact W|pose proof (proj1 (qn_le i b) ltac:(lia)); qlra]).
    set (t := (qn i - qn a) / (qn b - qn a)) in *. clearbody t. clear - T0 T1 Ea Eb. destruct Ea, Eb. split; qnra.
  - rewrite (C i a va Hi E N1 N2). destruct N1 as (_ & Ea & _). eapply H; eauto.
  - rewrite (D i b vb E N1 N2). destruct N1 as (_ & Eb & _). eapply H; eauto.
Qed.
Lemma filled_const x y c : filled x y -> (forall j v, nth j x None = Some v -> v = c) -> forall i, (i < length x)%nat -> y@i = c.
Proof.
  intros F H i Hi. destruct (filled_between x y c c F) with (i := i) as (A & B); [intros j v E; rewrite (H j v E); split; apply Qcle_refl|exact Hi|]. qlra.
Qed.

(** linear combination of optional values *)
Definition olin (a b : Qc) (u v : option Qc) : option Qc := match u, v with Some p, Some q => Some (a * p + b * q) | _, _ => None end.
Lemma filled_linear a b x1 x2 y1 y2 y3 : length x1 = length x2 ->
  (forall j, nth j x1 None = None <-> nth j x2 None = None) ->
  filled x1 y1 -> filled x2 y2 -> filled (map (fun p => olin a b (fst p) (snd p)) (combine x1 x2)) y3 ->
  forall i, (i < length x1)%nat -> y3@i = a * y1@i + b * y2@i.
Proof.
  intros L P (L1 & K1 & A1 & B1 & C1 & D1) (L2 & K2 & A2 & B2 & C2 & D2) (L3 & K3 & A3 & B3 & C3 & D3) i Hi.
  set (x3 := map (fun p => olin a b (fst p) (snd p)) (combine x1 x2)) in *.
  assert (N : forall j, nth j x3 None = olin a b (nth j x1 None) (nth j x2 None)).
  { intros j. unfold x3. change None with ((fun p : option Qc * option Qc => olin a b (fst p) (snd p)) (None, None)) at 1.
    rewrite map_nth, combine_nth by exact L. reflexivity. }
  assert (LX : length x3 = length x1) by (unfold x3; rewrite map_length, combine_length; lia).
  assert (V : forall j v, nth j x1 None = Some v -> exists w, nth j x2 None = Some w /\ nth j x3 None = Some (a * v + b * w)).
  { intros j v E. destruct (nth j x2 None) as [w|] eqn:E2; [exists w; split; [reflexivity|rewrite N, E, E2; reflexivity]|]. apply P in E2. congruence. }
  assert (O : forall j, nth j x1 None = None -> nth j x2 None = None /\ nth j x3 None = None).
  { intros j E. split; [now apply P|]. rewrite N, E. reflexivity. }
  assert (NL : forall j va, nearest_left x1 i j va -> exists vb, nearest_left x2 i j vb /\ nearest_left x3 i j (a * va + b * vb)).
  { intros j va (H1 & H2 & H3). destruct (V j va H2) as (w & W1 & W2). exists w. split; (split; [exact H1|]; split; [assumption|]; intros m Hm; apply O; now apply H3). }
  assert (NR : forall j va, nearest_right x1 i j va -> exists vb, nearest_right x2 i j vb /\ nearest_right x3 i j (a * va + b * vb)).
  { intros j va (H1 & H2 & H3). destruct (V j va H2) as (w & W1 & W2). exists w. split; (split; [exact H1|]; split; [assumption|]; intros m Hm; apply O; now apply H3). }
  destruct (fill_cases x1 i K1) as [v E|p vp q vq E N1 N2|p vp E N1 N2|q vq E N1 N2].
  - destruct (V i v E) as (w & W1 & W2). rewrite (A1 i v E), (A2 i w W1), (A3 i _ W2). reflexivity.
  - destruct (NL p vp N1) as (wp & P2 & P3). destruct (NR q vq N2) as (wq & Q2 & Q3). destruct (O i E) as (E2 & E3).
    rewrite (B1 i p vp q vq E N1 N2), (B2 i p wp q wq E2 P2 Q2), (B3 i p _ q _ E3 P3 Q3). unfold lerp. ring.
  - destruct (NL p vp N1) as (wp & P2 & P3). destruct (O i E) as (E2 & E3).
    rewrite (C1 i p vp Hi E N1 N2), (C2 i p wp), (C3 i p _ ltac:(lia) E3 P3); [reflexivity| |lia|exact E2|exact P2|]; intros j Hj; now apply O, N2.
  - destruct (NR q vq N1) as (wq & Q2 & Q3). destruct (O i E) as (E2 & E3).
    rewrite (D1 i q vq E N1 N2), (D2 i q wq E2 Q2), (D3 i q _ E3 Q3); [reflexivity| |]; intros j Hj; now apply O, N2.
Qed.

(** ** Binnings *)
Lemma distinct_unique xs u v : distinct_values xs u -> distinct_values xs v -> u = v.
Proof. intros (A & B) (C & D). apply increasing_unique_ext; auto. intros x. rewrite B, D. reflexivity. Qed.
Lemma distinct_perm xs ys u : (forall x, In x xs <-> In x ys) -> distinct_values xs u -> distinct_values ys u.
Proof. intros H (A & B). split; [exact A|]. intros x. rewrite B. apply H. Qed.
Lemma around_unique u l l2 : around u l -> around u l2 -> (2 <= length u)%nat -> l = l2.
Proof.
  intros (A1 & B1 & C1 & D1) (A2 & B2 & C2 & D2) H. apply nth_ext with (d := 0) (d' := 0); [congruence|]. rewrite A1. intros i Hi.
  destruct i as [|i]; [now rewrite B1, B2|]. destruct (Nat.eq_dec (S i) (length u)) as [->|]; [now rewrite D1, D2|]. rewrite C1, C2 by lia. reflexivity.
Qed.
Lemma equal_width_unique lo hi n l l2 : equal_width lo hi n l -> equal_width lo hi n l2 -> l = l2.
Proof.
  intros (A1 & B1) (A2 & B2). apply nth_ext with (d := 0) (d' := 0); [congruence|]. rewrite A1. intros i Hi. rewrite B1, B2 by lia. reflexivity.
Qed.
Lemma widened_unique l a b : widened l a -> widened l b -> a = b.
Proof.
  intros (A1 & B1 & C1) (A2 & B2 & C2). apply nth_ext with (d := 0) (d' := 0); [congruence|]. rewrite A1. intros i Hi.
  destruct (Nat.eq_dec i (length l - 1)) as [->|]; [now rewrite C1, C2|]. rewrite B1, B2 by lia. reflexivity.
Qed.
Lemma fixed_binning_unique n cl xs ys lo hi l l2 : (forall x, In x xs <-> In x ys) ->
  fixed_binning n cl xs lo hi l -> fixed_binning n cl ys lo hi l2 -> l = l2.
Proof.
  intros H (u & D1 & A) (v & D2 & B). apply (distinct_perm xs ys u H) in D1. rewrite <- (distinct_unique ys u v D1 D2) in B.
  destruct A as [(L1 & A)|(L1 & A)], B as [(L2 & B)|(L2 & B)]; try lia; [apply (around_unique u); auto; lia|eapply equal_width_unique; eauto].
Qed.

(** ** Sums *)
Lemma step_integral_ext l es es' x : (forall k, (k < length l - 1)%nat -> es@k = es'@k) -> step_integral l es x = step_integral l es' x.
Proof. intros H. unfold step_integral. apply sumq_map_ext. intros k Hk. apply in_seq in Hk. now rewrite H by lia. Qed.
Lemma step_integral_linear l a b e1 e2 e3 x : (forall k, (k < length l - 1)%nat -> e3@k = a * e1@k + b * e2@k) ->
  step_integral l e3 x = a * step_integral l e1 x + b * step_integral l e2 x.
Proof.
  intros H. unfold step_integral. rewrite <- !sumq_map_mul, <- sumq_map_add. apply sumq_map_ext. intros k Hk. apply in_seq in Hk.
  rewrite H by lia. ring.
Qed.
Lemma offset_linear ce lo hi a b (g1 g2 g3 : Qc -> Qc) : (forall x, g3 x = a * g1 x + b * g2 x) ->
  offset ce lo hi g3 = a * offset ce lo hi g1 + b * offset ce lo hi g2.
Proof.
  intros H. destruct ce; cbn [offset]; [ring|apply H|]. unfold mean. rewrite !map_length.
  rewrite (sumq_map_ext _ (fun i => a * g1 (middle lo hi i) + b * g2 (middle lo hi i))) by (intros i _; apply H).
  rewrite sumq_map_add, !sumq_map_mul. unfold Qcdiv. ring.
Qed.
Lemma filled_above x y lo : filled x y -> (forall j v, nth j x None = Some v -> lo <= v) -> forall i, (i < length x)%nat -> lo <= y@i.
Proof.
  intros F H i Hi.
  assert (B : exists hi, forall j v, nth j x None = Some v -> v <= hi).
  { clear. induction x as [|o x (hi & IH)]; [exists 0; intros [|j] v; discriminate|]. destruct o as [w|].
    - exists (Qcmax w hi). intros [|j] v E; simpl in E; [injection E as <-; apply Qcmax_ge_l|]. apply Qcle_trans with hi; [eapply IH; eauto|apply Qcmax_ge_r].
    - exists hi. intros [|j] v E; simpl in E; [discriminate|eauto]. }
  destruct B as (hi & B). destruct (filled_between x y lo hi F) with (i := i) as (A & _); auto. intros j v E. split; eauto.
Qed.

Lemma mean_ge m c : m <> [] -> (forall e, In e m -> c <= e) -> c <= mean m.
Proof.
  intros N H. assert (B : exists hi, forall e, In e m -> e <= hi).
  { clear. induction m as [|w m (hi & IH)]; [exists 0; intros e []|]. exists (Qcmax w hi). intros e [<-|He]; [apply Qcmax_ge_l|].
    apply Qcle_trans with hi; [auto|apply Qcmax_ge_r]. }
  destruct B as (hi & B). apply (mean_bounds m c hi N). auto.
Qed.

(** the entries of a list of bin statistics *)
Lemma stats_nth (h : list Qc -> option Qc) (s : nat -> list Qc) n j v : nth j (map (fun k => h (s k)) (seq 0 n)) None = Some v ->
  (j < n)%nat /\ h (s j) = Some v.
Proof.
  intros E. destruct (Nat.lt_ge_cases j n) as [L|L].
  - rewrite nth_seq_map in E by exact L. auto.
  - rewrite nth_overflow in E by (rewrite map_length, seq_length; exact L). discriminate.
Qed.
Lemma mean_of_some m v : mean_of m = Some v -> m <> [] /\ v = mean m.
Proof. destruct m; [discriminate|]. intros E. injection E as <-. split; [discriminate|reflexivity]. Qed.
Lemma variance_of_some m v : variance_of m = Some v -> (2 <= length m)%nat /\ v = variance m.
Proof. destruct m as [|a [|b m]]; try discriminate. intros E. injection E as <-. split; [simpl; lia|reflexivity]. Qed.
Lemma variance_of_none m : (length m < 2)%nat -> variance_of m = None.
Proof. destruct m as [|a [|b m]]; try reflexivity. simpl. lia. Qed.
Lemma bin_means_length l s be : bin_means l s be -> length be = (length l - 1)%nat.
Proof. intros (L & _). now rewrite map_length, seq_length in L. Qed.
Lemma bin_variances_length l s be : bin_variances l s be -> length be = (length l - 1)%nat.
Proof. intros (L & _). now rewrite map_length, seq_length in L. Qed.
(** a bin with instances carries its mean *)
Lemma bin_means_known l s be k : bin_means l s be -> (k < length l - 1)%nat -> s k <> [] -> be@k = mean (s k).
Proof.
  intros (_ & _ & A & _) Hk N. apply A. rewrite (nth_seq_map (fun j => mean_of (s j))) by exact Hk. destruct (s k); [congruence|reflexivity].
Qed.
Lemma bin_means_const l s be c : bin_means l s be -> (forall k, (k < length l - 1)%nat -> forall v, In v (s k) -> v = c) ->
  forall k, (k < length l - 1)%nat -> be@k = c.
Proof.
  intros F H k Hk. apply (filled_const _ _ c F); [|rewrite map_length, seq_length; exact Hk].
  intros j v E. apply stats_nth in E as (Hj & E). apply mean_of_some in E as (N & ->). apply mean_const; [exact N|]. intros e He. now apply (H j).
Qed.
Lemma bin_means_above l s be c : bin_means l s be -> (forall k, (k < length l - 1)%nat -> forall v, In v (s k) -> c <= v) ->
  forall k, (k < length l - 1)%nat -> c <= be@k.
Proof.
  intros F H k Hk. apply (filled_above _ _ c F); [|rewrite map_length, seq_length; exact Hk].
  intros j v E. apply stats_nth in E as (Hj & E). apply mean_of_some in E as (N & ->). apply mean_ge; [exact N|]. intros e He. now apply (H j).
Qed.
Lemma bin_means_between l s be a b : bin_means l s be -> (forall k, (k < length l - 1)%nat -> forall v, In v (s k) -> a <= v <= b) ->
  forall k, (k < length l - 1)%nat -> a <= be@k <= b.
Proof.
  intros F H k Hk. apply (filled_between _ _ a b F); [|rewrite map_length, seq_length; exact Hk].
  intros j v E. apply stats_nth in E as (Hj & E). apply mean_of_some in E as (N & ->). apply mean_bounds; [exact N|]. intros e He. now apply (H j).
Qed.
Lemma bin_variances_zero l s bv : bin_variances l s bv -> (forall k, (k < length l - 1)%nat -> exists c, forall v, In v (s k) -> v = c) ->
  forall k, (k < length l - 1)%nat -> bv@k = 0.
Proof.
  intros F H k Hk. apply (filled_const _ _ 0 F); [|rewrite map_length, seq_length; exact Hk].
  intros j v E. apply stats_nth in E as (Hj & E). apply variance_of_some in E as (N & ->). destruct (H j Hj) as (c & Hc).
  apply variance_zero_iff; [intros Q; rewrite Q in N; simpl in N; lia|]. intros p q Hp Hq. rewrite (Hc p Hp), (Hc q Hq). reflexivity.
Qed.
