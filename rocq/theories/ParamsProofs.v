(** compute_ale_params on covering, increasing limits. *)
From Verif Require Import Base Numpy Spec NumpyFacts Utils UtilsProofs FillProofs AccProofs.
Open Scope Qc_scope.
Open Scope list_scope.

(** Some bin holds at least two instances. *)
Definition two_in_a_bin (l xs : list Qc) : Prop := exists k, (k < length l - 1)%nat /\ (2 <= count (in_bin l k) xs)%nat.

Section Params.
Variables (xs es l : list Qc).
Hypothesis Hlen : length es = length xs.
Hypothesis Hl : (2 <= length l)%nat.
Hypothesis Hi : increasing l.
Hypothesis Hc : forall x, In x xs -> covered l x.

Lemma ale_params_eq : compute_ale_params xs es l =
  (e <- fill_nans (map (fun k => mean_or_nan (members l xs es k)) (seq 0 (length l - 1))) ;;
   v <- fill_nans (map (fun k => var_or_nan (members l xs es k)) (seq 0 (length l - 1))) ;;
   w <- fill_nans (map (fun k => estvar_or_nan (members l xs es k)) (seq 0 (length l - 1))) ;;
   Ok (mkParams l (diffs l) (map (fun k => count (in_bin l k) xs) (seq 0 (length l - 1))) e v w)).
Proof.
  unfold compute_ale_params. cbv zeta. rewrite (compute_bin_effect_eq xs es l Hlen Hl Hi Hc). unfold bind at 1.
  rewrite (compute_bin_variance_eq xs es l Hlen Hl Hi Hc).
  - reflexivity.
  - now rewrite map_length, seq_length.
  - intros k Hk Hne. rewrite (nth_map_in _ _ _ 0%nat) by now rewrite seq_length. rewrite nth_seq by exact Hk.
    simpl Nat.add. destruct (members l xs es k); [congruence|reflexivity].
Qed.

Lemma nth_seq_map {A} (h : nat -> A) n k d : (k < n)%nat -> nth k (map h (seq 0 n)) d = h k.
Proof. intros H. rewrite (nth_map_in _ _ _ 0%nat) by now rewrite seq_length. now rewrite nth_seq. Qed.

Lemma ale_params_ok : two_in_a_bin l xs -> exists p, compute_ale_params xs es l = Ok p.
Proof.
  intros (k & Hk & H2). rewrite ale_params_eq. rewrite <- (members_length l xs es k Hlen) in H2.
  assert (F : forall h, (exists v, h (members l xs es k) = Some v) -> exists y, fill_nans (map (fun k => h (members l xs es k)) (seq 0 (length l - 1))) = Ok y).
  { intros h (v & Hv). destruct (fill_nans_ok_or_raise (map (fun k => h (members l xs es k)) (seq 0 (length l - 1)))) as [E|E]; [exact E|].
    apply fill_nans_raise_iff with (j := k) in E. rewrite nth_seq_map in E by exact Hk. congruence. }
  destruct (F mean_or_nan) as (e & ->). { destruct (members l xs es k); [simpl in H2; lia|]. simpl. eauto. } unfold bind at 1.
  destruct (F var_or_nan) as (v & ->). { unfold var_or_nan. destruct (Nat.ltb_spec 1 (length (members l xs es k))); [eauto|lia]. } unfold bind at 1.
  destruct (F estvar_or_nan) as (w & ->). { unfold estvar_or_nan. destruct (Nat.ltb_spec 1 (length (members l xs es k))); [eauto|lia]. } unfold bind at 1.
  eauto.
Qed.

Lemma ale_params_raise : ~ two_in_a_bin l xs -> compute_ale_params xs es l = Raise ValueError.
Proof.
  intros H. rewrite ale_params_eq.
  destruct (fill_nans_ok_or_raise (map (fun k => mean_or_nan (members l xs es k)) (seq 0 (length l - 1)))) as [(e & ->)| ->]; [|reflexivity].
  unfold bind at 1. replace (fill_nans (map (fun k => var_or_nan (members l xs es k)) (seq 0 (length l - 1)))) with (@Raise (list Qc) ValueError); [reflexivity|].
  symmetry. apply fill_nans_raise_iff. intros j. destruct (Nat.lt_ge_cases j (length l - 1)) as [L|L].
  - rewrite nth_seq_map by exact L. unfold var_or_nan. destruct (Nat.ltb_spec 1 (length (members l xs es j))) as [Q|Q]; [|reflexivity].
    exfalso. apply H. exists j. split; [exact L|]. rewrite <- (members_length l xs es j Hlen). lia.
  - apply nth_overflow. rewrite map_length, seq_length. exact L.
Qed.

Lemma ale_params_two p : compute_ale_params xs es l = Ok p -> two_in_a_bin l xs.
Proof.
  intros H. destruct (existsb (fun k => Nat.leb 2 (count (in_bin l k) xs)) (seq 0 (length l - 1))) eqn:E.
  - apply existsb_exists in E as (k & Hk & Q). apply in_seq in Hk. apply Nat.leb_le in Q. exists k. split; [lia|exact Q].
  - rewrite ale_params_raise in H; [discriminate|]. intros (k & Hk & Q).
    assert (T : existsb (fun k => Nat.leb 2 (count (in_bin l k) xs)) (seq 0 (length l - 1)) = true).
    { apply existsb_exists. exists k. split; [apply in_seq; lia|now apply Nat.leb_le]. }
    congruence.
Qed.

Lemma ale_params_values p : compute_ale_params xs es l = Ok p ->
  ap_limits p = l /\ ap_dx p = diffs l /\
  ap_ppb p = map (fun k => count (in_bin l k) xs) (seq 0 (length l - 1)) /\
  length (ap_effect p) = (length l - 1)%nat /\ length (ap_var p) = (length l - 1)%nat /\
  (forall k, (k < length l - 1)%nat -> members l xs es k <> [] -> (ap_effect p)@k = mean (members l xs es k)) /\
  (forall k, (k < length l - 1)%nat -> (2 <= length (members l xs es k))%nat -> (ap_var p)@k = variance (members l xs es k)) /\
  (forall a b, (forall k, (k < length l - 1)%nat -> members l xs es k <> [] -> a <= mean (members l xs es k) <= b) ->
     forall k, (k < length l - 1)%nat -> a <= (ap_effect p)@k <= b) /\
  (forall a b, (forall k, (k < length l - 1)%nat -> (2 <= length (members l xs es k))%nat -> a <= variance (members l xs es k) <= b) ->
     forall k, (k < length l - 1)%nat -> a <= (ap_var p)@k <= b).
Proof.
  intros H. rewrite ale_params_eq in H. apply bind_ok in H as (e & He & H). apply bind_ok in H as (v & Hv & H).
  apply bind_ok in H as (w & Hw & H). inversion H; subst p; clear H. cbn [ap_limits ap_dx ap_ppb ap_effect ap_var].
  do 3 (split; [reflexivity|]).
  split; [apply fill_nans_length in He; now rewrite map_length, seq_length in He|].
  split; [apply fill_nans_length in Hv; now rewrite map_length, seq_length in Hv|].
  split; [|split; [|split]].
  - intros k Hk Hn. apply (fill_nans_keeps _ _ _ _ He). rewrite nth_seq_map by exact Hk. destruct (members l xs es k); [congruence|reflexivity].
  - intros k Hk Hn. apply (fill_nans_keeps _ _ _ _ Hv). rewrite nth_seq_map by exact Hk. unfold var_or_nan.
    destruct (Nat.ltb_spec 1 (length (members l xs es k))); [reflexivity|lia].
  - intros a b Hb k Hk. apply (fill_nans_range _ _ a b He); [|now rewrite map_length, seq_length].
    intros i u Hu. destruct (Nat.lt_ge_cases i (length l - 1)) as [L|L].
    + rewrite nth_seq_map in Hu by exact L. destruct (members l xs es i) eqn:M; [discriminate|].
      unfold mean_or_nan in Hu. assert (Eu : u = mean (members l xs es i)) by (rewrite M; congruence). rewrite Eu. apply Hb; [exact L|congruence].
    + rewrite nth_overflow in Hu by (rewrite map_length, seq_length; exact L). discriminate.
  - intros a b Hb k Hk. apply (fill_nans_range _ _ a b Hv); [|now rewrite map_length, seq_length].
    intros i u Hu. destruct (Nat.lt_ge_cases i (length l - 1)) as [L|L].
    + rewrite nth_seq_map in Hu by exact L. unfold var_or_nan in Hu. destruct (Nat.ltb_spec 1 (length (members l xs es i))); [|discriminate].
      inversion Hu; subst u. apply Hb; [exact L|lia].
    + rewrite nth_overflow in Hu by (rewrite map_length, seq_length; exact L). discriminate.
Qed.

(** the bin variances are never negative *)
Lemma ale_params_var_nonneg p : compute_ale_params xs es l = Ok p -> forall k, (k < length l - 1)%nat -> 0 <= (ap_var p)@k.
Proof.
  intros H k Hk. destruct (ale_params_values p H) as (_ & _ & _ & _ & _ & _ & _ & _ & V).
  (* an upper bound: the maximum of the variances *)
  set (b := sumq (map (fun k => variance (members l xs es k)) (filter (fun k => Nat.ltb 1 (length (members l xs es k))) (seq 0 (length l - 1))))).
  apply (V 0 b); [|exact Hk]. intros j Hj Hm.
  assert (P : forall j, (1 < length (members l xs es j))%nat -> 0 <= variance (members l xs es j)).
  { intros i Hi2. apply variance_nonneg. intros E. rewrite E in Hi2. simpl in Hi2. lia. }
  split; [apply P; lia|]. unfold b.
  assert (In j (filter (fun k => Nat.ltb 1 (length (members l xs es k))) (seq 0 (length l - 1)))).
  { apply filter_In. split; [apply in_seq; lia|]. apply Nat.ltb_lt. lia. }
  assert (Q : forall i, In i (filter (fun k => Nat.ltb 1 (length (members l xs es k))) (seq 0 (length l - 1))) -> 0 <= variance (members l xs es i)).
  { intros i Hin. apply filter_In in Hin as [_ Hin]. apply Nat.ltb_lt in Hin. now apply P. }
  revert H0 Q. generalize (filter (fun k => Nat.ltb 1 (length (members l xs es k))) (seq 0 (length l - 1))). intros L.
  induction L as [|a L IH]; intros Hin Q; [destruct Hin|]. cbn [map]. rewrite sumq_cons.
  pose proof (Q a (or_introl eq_refl)) as Qa.
  assert (S0 : 0 <= sumq (map (fun k => variance (members l xs es k)) L)).
  { clear -Q. induction L as [|x L IH]; simpl; [apply Qcle_refl|].
    pose proof (Q x (or_intror (or_introl eq_refl))). assert (0 <= sumq (map (fun k => variance (members l xs es k)) L)) by (apply IH; intros i [E|E]; apply Q; [now left|right; now right]). qlra. }
  destruct Hin as [->|Hin].
  - qlra.
  - specialize (IH Hin (fun i E => Q i (or_intror E))). qlra.
Qed.
End Params.

(** *** integrals of constant step functions *)
Lemma step_integral_const l a es x : increasing l -> (2 <= length l)%nat -> (forall k, (k < length l - 1)%nat -> es@k = a) ->
  step_integral l es x = a * (clip l@0 l@(length l - 1) x - l@0).
Proof.
  intros Hi Hl He. unfold step_integral.
  rewrite (sumq_map_ext _ (fun k => a * (clip l@k l@(S k) x - l@k))).
  2:{ intros k Hk. apply in_seq in Hk. rewrite He by lia. reflexivity. }
  rewrite sumq_map_mul. f_equal.
  set (y := Qcmin x l@0). assert (Hy1 : y <= x) by apply Qcmin_le_l. assert (Hy2 : y <= l@0) by apply Qcmin_le_r. clearbody y.
  pose proof (clip_total l y x (length l - 1) Hi ltac:(lia) Hy1) as T.
  assert (C : forall k, (k < length l)%nat -> y <= l@k).
  { intros k Hk. assert (l@0 <= l@k) by (apply (increasing_weak l Hi); lia). qlra. }
  rewrite (clip_left l@0 l@(length l - 1) y) in T; [|apply (increasing_weak l Hi); lia|exact Hy2].
  rewrite <- T. apply sumq_map_ext. intros k Hk. apply in_seq in Hk. rewrite (clip_left l@k l@(S k) y); [reflexivity|apply (increasing_weak l Hi); lia|apply C; lia].
Qed.

Lemma step_integral_sub l es fs x : step_integral l es x - step_integral l fs x = step_integral l (map (fun k => es@k - fs@k) (seq 0 (length l - 1))) x.
Proof.
  unfold step_integral. rewrite <- sumq_map_sub. apply sumq_map_ext. intros k Hk. apply in_seq in Hk.
  rewrite nth_seq_map by lia. ring.
Qed.

(** bin effects close to [a] give a curve close to the line of slope [a] *)
Lemma step_integral_near l es a M x : increasing l -> (2 <= length l)%nat ->
  (forall k, (k < length l - 1)%nat -> Qcabs (es@k - a) <= M) -> l@0 <= x <= l@(length l - 1) ->
  Qcabs (step_integral l es x - a * (x - l@0)) <= M * (x - l@0).
Proof.
  intros Hi Hl He [H1 H2].
  assert (E : a * (x - l@0) = step_integral l (map (fun _ => a) (seq 0 (length l - 1))) x).
  { rewrite (step_integral_const l a) by (auto; intros k Hk; now rewrite nth_seq_map).
    rewrite clip_mid by assumption. reflexivity. }
  rewrite E, step_integral_sub.
  set (ds := map _ (seq 0 (length l - 1))).
  pose proof (step_integral_lipschitz l ds M l@0 x Hi Hl) as L.
  rewrite (step_integral_left l ds l@0 Hi (Qcle_refl _)) in L.
  replace (step_integral l ds x - 0) with (step_integral l ds x) in L by ring. apply L; [unfold ds; now rewrite map_length, seq_length| |exact H1].
  intros e Hin. unfold ds in Hin. apply in_map_iff in Hin as (k & <- & Hk). apply in_seq in Hk. rewrite nth_seq_map by lia. apply He. lia.
Qed.
