(** Proofs about helpers.py and utils_integrate.py (C10, C35, C51, C52). *)
From Coq Require Import DecimalString DecimalNat.
From Verif Require Import Base Numpy Spec NumpyFacts Utils UtilsProofs AccProofs LocalProofs Helpers Integrate.
Open Scope Qc_scope.
Open Scope list_scope.

(** ** midpoints of a linspace *)
Lemma midpoints_length l : length (midpoints l) = (length l - 1)%nat.
Proof.
  unfold midpoints, init_. rewrite map_length, combine_length, removelast_length. destruct l; simpl length; lia.
Qed.
Lemma midpoints_nth l k : (S k < length l)%nat -> (midpoints l)@k = Q2Qc (1#2) * (l@k + l@(S k)).
Proof.
  intros H. unfold midpoints, init_.
  assert (L1 : length (removelast l) = (length l - 1)%nat) by apply removelast_length.
  assert (L2 : length (tl l) = (length l - 1)%nat) by (destruct l; simpl; lia).
  rewrite (nth_map_in _ _ _ (0,0)) by (rewrite combine_length; lia).
  rewrite combine_nth by congruence. cbn [fst snd]. rewrite nth_removelast by exact H.
  do 2 f_equal. destruct l; [simpl in H; lia|]. reflexivity.
Qed.

Lemma sumq_nth l : sumq l = sumq (map (fun k => l@k) (seq 0 (length l))).
Proof. now rewrite map_nth_seq. Qed.

Lemma half_sum a b : Q2Qc (1#2) * (a + b) + Q2Qc (1#2) * (a + b) = a + b.
Proof. qlra. Qed.

(** sum_{k<n} (2k+1) = n^2 *)
Lemma sum_odd n : sumq (map (fun k => qn k + qn k + 1) (seq 0 n)) = qn n * qn n.
Proof.
  induction n as [|n IH]; [simpl; rewrite qn_0; ring|].
  rewrite seq_S, map_app, sumq_app, IH. simpl. rewrite qn_S. ring.
Qed.

Lemma midpoints_linspace_nth a b n k : (2 <= n)%nat -> (S k < n)%nat ->
  (midpoints (linspace a b n))@k = a + Q2Qc (1#2) * ((qn k + qn k + 1) * ((b - a) / qn (n - 1))).
Proof.
  intros Hn Hk. rewrite midpoints_nth by (rewrite linspace_length; lia).
  rewrite !linspace_nth by lia. rewrite qn_S.
  set (w := (b - a) / qn (n - 1)). clearbody w.
  set (q := qn k). clearbody q.
  assert (E : forall z, z = Q2Qc (1#2) * z + Q2Qc (1#2) * z) by (intros; qlra).
  rewrite (E a) at 3. ring.
Qed.

Lemma midpoints_linspace_sum a b n : (2 <= n)%nat ->
  sumq (midpoints (linspace a b n)) = qn (n - 1) * (Q2Qc (1#2) * (a + b)).
Proof.
  intros Hn. rewrite sumq_nth, midpoints_length, linspace_length.
  rewrite (sumq_map_ext _ (fun k => a + (Q2Qc (1#2) * ((b - a) / qn (n - 1))) * (qn k + qn k + 1))).
  - rewrite sumq_map_add, sumq_const, seq_length, sumq_map_mul, sum_odd.
    assert (N : qn (n - 1) <> 0) by (apply qn_neq0; lia).
    replace (Q2Qc (1#2) * ((b - a) / qn (n - 1)) * (qn (n - 1) * qn (n - 1)))
      with (Q2Qc (1#2) * (b - a) * qn (n - 1)) by (field; exact N).
    set (q := qn (n - 1)). clearbody q.
    replace (q * a) with ((Q2Qc (1#2) * a + Q2Qc (1#2) * a) * q).
    + ring.
    + replace (Q2Qc (1#2) * a + Q2Qc (1#2) * a) with a by qlra. ring.
  - intros k Hk. apply in_seq in Hk. rewrite midpoints_linspace_nth by lia. ring.
Qed.

Lemma midpoints_linspace_in a b n x : (2 <= n)%nat -> a <= b -> In x (midpoints (linspace a b n)) -> a <= x <= b.
Proof.
  intros Hn Hab Hx. apply (In_nth _ _ 0) in Hx as (k & Hk & <-).
  rewrite midpoints_length, linspace_length in Hk. rewrite midpoints_nth by (rewrite linspace_length; lia).
  assert (B : forall i, (i < n)%nat -> a <= (linspace a b n)@i <= b).
  { intros i Hi. rewrite linspace_nth by lia.
    assert (N : 0 < qn (n - 1)) by (apply qn_pos; lia).
    assert (W : 0 <= (b - a) / qn (n - 1)) by (apply Qcdiv_le_0; [qlra|exact N]).
    assert (I0 : 0 <= qn i) by apply qn_nonneg.
    assert (I1 : qn i <= qn (n - 1)) by (apply qn_le; lia).
    assert (P0 : 0 <= qn i * ((b - a) / qn (n - 1))) by (apply Qcmult_le_0; assumption).
    assert (P1 : qn i * ((b - a) / qn (n - 1)) <= b - a).
    { apply Qcle_trans with (qn (n - 1) * ((b - a) / qn (n - 1))).
      - apply Qcmul_le_compat_r; assumption.
      - rewrite Qcmult_comm, Qcdiv_mul; [apply Qcle_refl|qlra]. }
    set (t := qn i * ((b - a) / qn (n - 1))) in *. clearbody t. split; qlra. }
  pose proof (B k ltac:(lia)) as [B1 B2]. pose proof (B (S k) ltac:(lia)) as [B3 B4].
  set (u := (linspace a b n)@k) in *. set (v := (linspace a b n)@(S k)) in *. clearbody u v. clear B.
  split; qlra.
Qed.

Lemma np_mean_some l : l <> [] -> np_mean l = Some (mean l).
Proof. destruct l; [congruence|reflexivity]. Qed.

Lemma mean_1d_eq g a b n : (2 <= n)%nat ->
  mean_1d_linspace (map g) a b n = Some (mean (map g (midpoints (linspace a b n)))).
Proof.
  intros Hn. unfold mean_1d_linspace. apply np_mean_some. intros E. apply (f_equal (@length Qc)) in E.
  rewrite map_length, midpoints_length, linspace_length in E. simpl in E. lia.
Qed.

Lemma mean_1d_affine c0 c1 a b n : (2 <= n)%nat ->
  mean_1d_linspace (map (fun x => c0 + c1 * x)) a b n = Some (c0 + c1 * ((a + b) / Q2Qc 2)).
Proof.
  intros Hn. rewrite mean_1d_eq by exact Hn. f_equal. unfold mean.
  rewrite map_length, midpoints_length, linspace_length.
  rewrite sumq_map_add, sumq_const, sumq_map_mul, map_id, midpoints_length, linspace_length, midpoints_linspace_sum by exact Hn.
  assert (N : qn (n - 1) <> 0) by (apply qn_neq0; lia).
  replace ((a + b) / Q2Qc 2) with (Q2Qc (1#2) * (a + b)) by qlra. field. exact N.
Qed.

Lemma mean_1d_bounds g a b n lo hi m : (2 <= n)%nat -> a <= b -> (forall x, a <= x <= b -> lo <= g x <= hi) ->
  mean_1d_linspace (map g) a b n = Some m -> lo <= m <= hi.
Proof.
  intros Hn Hab H E. rewrite mean_1d_eq in E by exact Hn. injection E as <-.
  apply mean_bounds.
  - intros E. apply (f_equal (@length Qc)) in E. rewrite map_length, midpoints_length, linspace_length in E. simpl in E. lia.
  - intros y Hy. apply in_map_iff in Hy as (x & <- & Hx). apply H. apply (midpoints_linspace_in a b n x Hn Hab Hx).
Qed.

Lemma mean_1d_small g a b n : (n < 2)%nat -> mean_1d_linspace (map g) a b n = None.
Proof.
  intros H. unfold mean_1d_linspace.
  assert (E : midpoints (linspace a b n) = []).
  { apply length_zero_iff_nil. rewrite midpoints_length, linspace_length. lia. }
  now rewrite E.
Qed.

(** shifting by a constant *)
Lemma mean_sub_const {A} (g : A -> Qc) c l : l <> [] -> mean (map (fun x => g x - c) l) = mean (map g l) - c.
Proof.
  intros H. unfold mean. rewrite !map_length, sumq_map_sub, sumq_const. field. apply qn_neq0.
  destruct l; [congruence|]. simpl. lia.
Qed.

Lemma integrate_const c a b :
  integrate_1d_linspace (map (fun _ => c)) a b = c * (b - a) * Q2Qc (999 # 1000).
Proof.
  unfold integrate_1d_linspace. rewrite sumq_const.
  rewrite midpoints_length, linspace_length. change (qn (1000 - 1)) with (qn 999).
  replace (qn 999) with (Q2Qc 999) by (apply Qc_is_canon; reflexivity).
  set (t := c * (b - a)).
  replace (Q2Qc 999 * c * (b - a)) with (t * Q2Qc 999) by (unfold t; ring). clearbody t. qlra.
Qed.

(** ** axis limits *)
Lemma axis_limits_ok X : rows X <> [] ->
  exists mins maxs, axis_limits_from_data X = Ok (mins, maxs) /\ length mins = dim X /\ length maxs = dim X /\
    forall f, (f < dim X)%nat ->
      (forall r, In r (rows X) -> mins@f <= r@f <= maxs@f) /\
      (exists r, In r (rows X) /\ r@f = mins@f) /\ (exists r, In r (rows X) /\ r@f = maxs@f).
Proof.
  intros Hn. unfold axis_limits_from_data.
  assert (C : forall d, col (rows X) d <> []) by (intros d; destruct (rows X); [congruence|discriminate]).
  set (mn := fun d => match np_min (col (rows X) d) with Ok v => v | _ => 0 end).
  set (mx := fun d => match np_max (col (rows X) d) with Ok v => v | _ => 0 end).
  rewrite (mapM_ok _ mn), (mapM_ok _ mx).
  2:{ intros d _. unfold mx. destruct (np_max_spec _ (C d)) as (m & -> & _). reflexivity. }
  2:{ intros d _. unfold mn. destruct (np_min_spec _ (C d)) as (m & -> & _). reflexivity. }
  do 2 eexists. split; [reflexivity|]. split; [now rewrite map_length, seq_length|]. split; [now rewrite map_length, seq_length|].
  intros f Hf. rewrite !(nth_map_in _ _ _ 0%nat) by now rewrite seq_length. rewrite nth_seq by exact Hf. simpl Nat.add.
  unfold mn, mx. destruct (np_min_spec _ (C f)) as (m & -> & Im & Lm). destruct (np_max_spec _ (C f)) as (M & -> & IM & LM).
  split; [|split].
  - intros r Hr. assert (In r@f (col (rows X) f)) by (unfold col; apply in_map_iff; eauto). auto.
  - apply col_in in Im as (r & Hr & E). eauto.
  - apply col_in in IM as (r & Hr & E). eauto.
Qed.

Lemma drop_points_id X lo hi f : (forall r, In r (rows X) -> lo <= r@f <= hi) -> drop_points_outside X lo hi f = X.
Proof.
  intros H. unfold drop_points_outside. rewrite (filter_all _ (rows X)).
  - rewrite filter_all; [destruct X; reflexivity|]. intros r Hr. apply Qcleb_le. now apply H.
  - intros r Hr. apply Qcleb_le. now apply H.
Qed.

Lemma drop_points_spec X lo hi f r : In r (rows (drop_points_outside X lo hi f)) <-> In r (rows X) /\ lo <= r@f <= hi.
Proof. unfold drop_points_outside. simpl. rewrite !filter_In, !Qcleb_le. tauto. Qed.

(** ** feature names are distinct *)
Lemma nat_to_string_inj a b : nat_to_string a = nat_to_string b -> a = b.
Proof.
  unfold nat_to_string. intros H.
  apply (f_equal NilEmpty.uint_of_string) in H. rewrite !NilEmpty.usu in H. injection H as H.
  apply (f_equal Nat.of_uint) in H. now rewrite !DecimalNat.Unsigned.of_to in H.
Qed.

Lemma feature_names_distinct D : NoDup (get_feature_names D) /\ length (get_feature_names D) = D.
Proof.
  unfold get_feature_names. split; [|now rewrite map_length, seq_length].
  apply FinFun.Injective_map_NoDup; [|apply seq_NoDup].
  intros a b H. simpl in H. injection H as H. now apply nat_to_string_inj.
Qed.

Lemma prep_centering_spec c :
  (c = PyBool true -> prep_centering c = Ok (PyStr "zero_integral")) /\
  (c = PyBool false \/ c = PyStr "zero_start" \/ c = PyStr "zero_integral" -> prep_centering c = Ok c) /\
  (c <> PyBool true -> c <> PyBool false -> c <> PyStr "zero_start" -> c <> PyStr "zero_integral" ->
   prep_centering c = Raise AssertionError).
Proof.
  split; [intros ->; reflexivity|]. split.
  - intros [->|[->| ->]]; reflexivity.
  - intros H1 H2 H3 H4. destruct c as [[]|s| | |]; try reflexivity; try congruence.
    unfold prep_centering. destruct (String.eqb_spec s "zero_start"); [congruence|].
    destruct (String.eqb_spec s "zero_integral"); [congruence|]. reflexivity.
Qed.

Lemma prep_features_spec D :
  (exists l, prep_features (PyStr "all") D = Ok (PyList l) /\
     (forall f : Z, In f l <-> (0 <= f < Z.of_nat D)%Z) /\ NoDup l) /\
  (forall z, prep_features (PyInt z) D = Ok (PyList [z])) /\
  (forall l, prep_features (PyList l) D = Ok (PyList l)) /\
  (forall b, prep_features (PyBool b) D = Raise AssertionError) /\
  prep_features PyOther D = Raise AssertionError.
Proof.
  split; [|repeat split].
  eexists. split; [reflexivity|]. split.
  - intros f. rewrite in_map_iff. split.
    + intros (i & <- & Hi). apply in_seq in Hi. lia.
    + intros H. exists (Z.to_nat f). split; [lia|]. apply in_seq. lia.
  - apply FinFun.Injective_map_NoDup; [|apply seq_NoDup]. intros a b H. lia.
Qed.

Lemma prep_confidence_interval_spec c :
  (c = PyBool true -> prep_confidence_interval c = Ok (PyStr "std")) /\
  (forall s, c = PyStr s -> In s ["std"; "std_err"; "ice"; "shap_values"]%string -> prep_confidence_interval c = Ok c) /\
  (forall s, c = PyStr s -> ~ In s ["std"; "std_err"; "ice"; "shap_values"]%string ->
     prep_confidence_interval c = Raise AssertionError) /\
  (c = PyBool false -> prep_confidence_interval c = Ok c).
Proof.
  split; [intros ->; reflexivity|]. split; [|split; [|intros ->; reflexivity]].
  - intros s -> H. simpl in H. repeat (destruct H as [<-|H]; [reflexivity|]). destruct H.
  - intros s -> H. unfold prep_confidence_interval.
    destruct (String.eqb_spec s "std"); [exfalso; apply H; subst; simpl; tauto|].
    destruct (String.eqb_spec s "std_err"); [exfalso; apply H; subst; simpl; tauto|].
    destruct (String.eqb_spec s "ice"); [exfalso; apply H; subst; simpl; tauto|].
    destruct (String.eqb_spec s "shap_values"); [exfalso; apply H; subst; simpl; tauto|]. reflexivity.
Qed.

Lemma prep_nof_instances_int choice N n :
  (forall N n, (n <= N)%nat -> length (choice N n) = n /\ NoDup (choice N n) /\ forall i, In i (choice N n) -> (i < N)%nat) ->
  exists idx, prep_nof_instances choice (PyInt (Z.of_nat n)) N = Ok (Z.of_nat n, idx) /\
    length idx = Nat.min n N /\ NoDup idx /\ (forall i, In i idx -> (i < N)%nat) /\
    ((N <= n)%nat -> idx = seq 0 N).
Proof.
  intros H. unfold prep_nof_instances. destruct (Z.ltb_spec (Z.of_nat n) (Z.of_nat N)) as [L|L].
  - destruct (Z.ltb_spec (Z.of_nat n) 0); [lia|]. eexists. split; [reflexivity|]. rewrite Nat2Z.id.
    destruct (H N n ltac:(lia)) as (A & B & C). split; [rewrite A; lia|]. split; [exact B|]. split; [exact C|lia].
  - eexists. split; [reflexivity|]. split; [rewrite seq_length; lia|]. split; [apply seq_NoDup|]. split; [|reflexivity].
    intros i Hi. apply in_seq in Hi. lia.
Qed.

Lemma select_rows_aligned (X E : Mat) idx : length E = length X -> (forall i, In i idx -> (i < length X)%nat) ->
  exists X' E', select_rows X idx = Ok X' /\ select_rows E idx = Ok E' /\ length X' = length idx /\ length E' = length idx /\
    forall k, (k < length idx)%nat -> nth k X' [] = nth (nth k idx 0%nat) X [] /\ nth k E' [] = nth (nth k idx 0%nat) E [].
Proof.
  intros HE H. unfold select_rows. do 2 eexists. split; [apply (take_ok X idx []); exact H|].
  split; [apply (take_ok E idx []); rewrite HE; exact H|]. split; [now rewrite map_length|]. split; [now rewrite map_length|].
  intros k Hk. rewrite !(nth_map_in _ _ _ 0%nat) by exact Hk. auto.
Qed.

Lemma select_rows_all {A} (X : list (list A)) : select_rows X (seq 0 (length X)) = Ok X.
Proof.
  unfold select_rows. rewrite (take_ok X _ []).
  - f_equal. apply list_ext with (d := []); [now rewrite map_length, seq_length|].
    intros i Hi. rewrite map_length, seq_length in Hi. rewrite (nth_map_in _ _ _ 0%nat) by now rewrite seq_length.
    now rewrite nth_seq.
  - intros i Hi. apply in_seq in Hi. lia.
Qed.

Lemma integrate_const_wrong c a b : c <> 0 -> a <> b ->
  integrate_1d_linspace (map (fun _ => c)) a b <> c * (b - a).
Proof.
  intros Hc Hab H. rewrite integrate_const in H.
  assert (Z : c * (b - a) = 0) by (set (t := c * (b - a)) in *; clearbody t; qlra).
  destruct (Qcmult_integral _ _ Z) as [E|E]; [contradiction|]. apply Hab. qlra.
Qed.

Lemma default_limits_drop_nothing X mins maxs f : (f < dim X)%nat ->
  axis_limits_from_data X = Ok (mins, maxs) -> drop_points_outside X mins@f maxs@f f = X.
Proof.
  intros Hf H. destruct (rows X) as [|r0 rs] eqn:E.
  - unfold drop_points_outside. rewrite E. simpl. destruct X; simpl in *; now subst.
  - destruct (axis_limits_ok X) as (mn & mx & E' & _ & _ & B); [rewrite E; discriminate|].
    rewrite H in E'. injection E' as <- <-. apply drop_points_id. apply B. exact Hf.
Qed.

Lemma filter_filter {A} (p q : A -> bool) l : filter q (filter p l) = filter (fun a => p a && q a) l.
Proof. induction l as [|a l IH]; [reflexivity|]. simpl. destruct (p a); simpl; [destruct (q a)|]; now rewrite IH. Qed.

Lemma drop_points_filter X lo hi f :
  dt (drop_points_outside X lo hi f) = dt X /\ dim (drop_points_outside X lo hi f) = dim X /\
  rows (drop_points_outside X lo hi f) = filter (fun r => (lo <=? r@f) && (r@f <=? hi)) (rows X).
Proof. unfold drop_points_outside. simpl. rewrite filter_filter. auto. Qed.
