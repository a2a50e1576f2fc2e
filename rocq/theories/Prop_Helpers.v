(** Properties C10, C35, C51, C52: effector/helpers.py and effector/utils_integrate.py. *)
From Verif Require Import Base Numpy Spec NumpyFacts Utils UtilsProofs Helpers Integrate HelpersProofs IntegrateProofs.
From Coq Require Import DecimalString.
Open Scope Qc_scope.
Open Scope list_scope.

(** * C10  Argument normalisation *)
Theorem C10_prep_centering : forall c,
  (* True means 'zero_integral', the three other documented values are returned unchanged *)
  (c = PyBool true -> prep_centering c = Ok (PyStr "zero_integral")) /\
  (c = PyBool false \/ c = PyStr "zero_start" \/ c = PyStr "zero_integral" -> prep_centering c = Ok c) /\
  (* everything else is rejected *)
  (c <> PyBool true -> c <> PyBool false -> c <> PyStr "zero_start" -> c <> PyStr "zero_integral" ->
   prep_centering c = Raise AssertionError).
Proof. exact prep_centering_spec. Qed.
Print Assumptions C10_prep_centering.

Theorem C10_prep_features : forall D,
  (exists l, prep_features (PyStr "all") D = Ok (PyList l) /\
     (forall f : Z, In f l <-> (0 <= f < Z.of_nat D)%Z) /\ NoDup l) /\
  (forall z, prep_features (PyInt z) D = Ok (PyList [z])) /\
  (forall l, prep_features (PyList l) D = Ok (PyList l)) /\
  (forall b, prep_features (PyBool b) D = Raise AssertionError) /\
  prep_features PyOther D = Raise AssertionError.
Proof. exact prep_features_spec. Qed.
Print Assumptions C10_prep_features.

Theorem C10_prep_confidence_interval : forall c,
  (c = PyBool true -> prep_confidence_interval c = Ok (PyStr "std")) /\
  (forall s, c = PyStr s -> In s ["std"; "std_err"; "ice"; "shap_values"]%string -> prep_confidence_interval c = Ok c) /\
  (forall s, c = PyStr s -> ~ In s ["std"; "std_err"; "ice"; "shap_values"]%string ->
     prep_confidence_interval c = Raise AssertionError) /\
  (c = PyBool false -> prep_confidence_interval c = Ok c).
Proof. exact prep_confidence_interval_spec. Qed.
Print Assumptions C10_prep_confidence_interval.

Example prep_centering_rejects : prep_centering (PyStr "zero_end") = Raise AssertionError /\ prep_centering (PyInt 1) = Raise AssertionError.
Proof. split; reflexivity. Qed.
(** A misspelt feature string is NOT rejected: it is returned as is and later iterated character by character. *)
Example prep_features_passes_strings : prep_features (PyStr "every") 3 = Ok (PyStr "every").
Proof. reflexivity. Qed.

(** * C35  Sub-sampling *)
(** What numpy guarantees for np.random.choice(N, n, replace=False). *)
Definition choice_without_replacement (choice : nat -> nat -> list nat) : Prop :=
  forall N n, (n <= N)%nat -> length (choice N n) = n /\ NoDup (choice N n) /\ forall i, In i (choice N n) -> (i < N)%nat.

Theorem C35_subsampling : forall choice N n, choice_without_replacement choice ->
  exists idx, prep_nof_instances choice (PyInt (Z.of_nat n)) N = Ok (Z.of_nat n, idx) /\
    length idx = Nat.min n N /\ NoDup idx /\ (forall i, In i idx -> (i < N)%nat) /\
    ((N <= n)%nat -> idx = seq 0 N).
Proof. exact prep_nof_instances_int. Qed.
Print Assumptions C35_subsampling.

Theorem C35_subsampling_all : forall choice N, prep_nof_instances choice (PyStr "all") N = Ok (Z.of_nat N, seq 0 N).
Proof. reflexivity. Qed.
Print Assumptions C35_subsampling_all.

(** The same index list applied to the data and to the effects keeps them aligned: row k of both comes
    from the same instance, and "all" keeps every row in order. *)
Theorem C35_rows_aligned : forall (X E : Mat) idx, length E = length X -> (forall i, In i idx -> (i < length X)%nat) ->
  exists X' E', select_rows X idx = Ok X' /\ select_rows E idx = Ok E' /\ length X' = length idx /\ length E' = length idx /\
    forall k, (k < length idx)%nat -> nth k X' [] = nth (nth k idx 0%nat) X [] /\ nth k E' [] = nth (nth k idx 0%nat) E [].
Proof. exact select_rows_aligned. Qed.
Print Assumptions C35_rows_aligned.
Theorem C35_all_rows : forall (X : Mat), select_rows X (seq 0 (length X)) = Ok X.
Proof. exact (fun X => select_rows_all X). Qed.
Print Assumptions C35_all_rows.

Example C35_choice_exists : choice_without_replacement (fun _ n => seq 0 n).
Proof. intros N n H. split; [now rewrite seq_length|]. split; [apply seq_NoDup|]. intros i Hi. apply in_seq in Hi. lia. Qed.

(** * C51  Numerical integration helpers *)
Theorem C51_mean_exact_on_affine : forall c0 c1 a b n, (2 <= n)%nat ->
  mean_1d_linspace (map (fun x => c0 + c1 * x)) a b n = Some (c0 + c1 * ((a + b) / Q2Qc 2)).
Proof. exact mean_1d_affine. Qed.
Print Assumptions C51_mean_exact_on_affine.

Theorem C51_mean_within_range : forall g a b n lo hi, (2 <= n)%nat -> a <= b ->
  (forall x, a <= x <= b -> lo <= g x <= hi) ->
  exists m, mean_1d_linspace (map g) a b n = Some m /\ lo <= m <= hi.
Proof.
  intros g a b n lo hi Hn Hab H. eexists. split; [exact (mean_1d_eq g a b n Hn)|].
  exact (mean_1d_bounds g a b n lo hi _ Hn Hab H (mean_1d_eq g a b n Hn)).
Qed.
Print Assumptions C51_mean_within_range.

(** mean_1d_linspace is the midpoint rule: the mean of the values at the midpoints of n - 1 equal cells. *)
Theorem C51_mean_midpoints : forall g a b n, (2 <= n)%nat ->
  mean_1d_linspace (map g) a b n = Some (mean (map (fun k => g (a + (qn k + Q2Qc (1#2)) * ((b - a) / qn (n - 1)))) (seq 0 (n - 1)))).
Proof. intros g a b n Hn. rewrite mean_1d_eq by exact Hn. rewrite midpoints_cells, map_map by exact Hn. reflexivity. Qed.
Print Assumptions C51_mean_midpoints.
(** Its error: a function with slopes at most [L] and a primitive [F] (a function whose increments lie between the bounds of
    [g]) has the mean value (F b - F a) / (b - a), and mean_1d_linspace is within L (b - a) / (2 (n - 1)) of it. *)
Theorem C51_mean_error : forall g F a b n L, (2 <= n)%nat -> a < b -> 0 <= L ->
  (forall x y, a <= x -> x <= y -> y <= b -> - (L * (y - x)) <= g y - g x <= L * (y - x)) ->
  (forall x y lo hi, a <= x -> x <= y -> y <= b -> (forall t, x <= t <= y -> lo <= g t <= hi) -> lo * (y - x) <= F y - F x <= hi * (y - x)) ->
  exists m, mean_1d_linspace (map g) a b n = Some m /\
    let e := L * (b - a) / (Q2Qc 2 * qn (n - 1)) in - e <= m - (F b - F a) / (b - a) <= e.
Proof.
  intros g F a b n L Hn Hab HL Lip P. eexists. split; [exact (mean_1d_eq g a b n Hn)|]. exact (midpoint_error g F a b n L Hn Hab HL Lip P).
Qed.
Print Assumptions C51_mean_error.
Example C51_error_instance : let g x := x * x in let F x := x * x * x / Q2Qc 3 in
  (forall x y, 0 <= x -> x <= y -> y <= 1 -> - (Q2Qc 2 * (y - x)) <= g y - g x <= Q2Qc 2 * (y - x)) /\
  (forall x y lo hi, 0 <= x -> x <= y -> y <= 1 -> (forall t, x <= t <= y -> lo <= g t <= hi) -> lo * (y - x) <= F y - F x <= hi * (y - x)) /\
  option_map this (mean_1d_linspace (map g) 0 1 11) = Some (133 # 400)%Q.
Proof.
  cbv zeta. assert (E2 : Q2Qc 2 = 1 + 1) by (apply Qc_is_canon; reflexivity). assert (E3 : forall q, q / Q2Qc 3 * (1 + 1 + 1) = q) by (intros q; replace (Q2Qc 3) with (1 + 1 + 1) by (apply Qc_is_canon; reflexivity); field; discriminate).
  split; [|split; [|vm_compute; reflexivity]].
  - intros x y Hx Hxy Hy. rewrite E2. split; qnra.
  - intros x y lo hi Hx Hxy Hy H. destruct (H x ltac:(split; qlra)) as [A _]. destruct (H y ltac:(split; qlra)) as [_ B].
    pose proof (E3 (x * x * x)) as P1. pose proof (E3 (y * y * y)) as P2. set (u := x * x * x / Q2Qc 3) in *. set (v := y * y * y / Q2Qc 3) in *. clearbody u v.
    assert (D : 0 <= y - x) by qlra. assert (A' : lo * (y - x) <= x * x * (y - x)) by (now apply Qcmul_le_compat_r). assert (B' : y * y * (y - x) <= hi * (y - x)) by (now apply Qcmul_le_compat_r).
    assert (K1 : 0 <= (y - x) * (y - x) * (y + x + x)) by (apply Qcmult_le_0; [apply Qcmult_le_0; assumption|qlra]). assert (K2 : 0 <= (y - x) * (y - x) * (y + y + x)) by (apply Qcmult_le_0; [apply Qcmult_le_0; assumption|qlra]).
    assert (V1 : (v - u) * (1 + 1 + 1) = x * x * (y - x) * (1 + 1 + 1) + (y - x) * (y - x) * (y + x + x)) by (rewrite Qcmult_comm, (Qcmult_comm (x * x * (y - x))); transitivity (v * (1 + 1 + 1) - u * (1 + 1 + 1)); [ring|rewrite P1, P2; ring]).
    assert (V2 : (v - u) * (1 + 1 + 1) = y * y * (y - x) * (1 + 1 + 1) - (y - x) * (y - x) * (y + y + x)) by (transitivity (v * (1 + 1 + 1) - u * (1 + 1 + 1)); [ring|rewrite P1, P2; ring]).
    set (k1 := (y - x) * (y - x) * (y + x + x)) in *. set (k2 := (y - x) * (y - x) * (y + y + x)) in *. set (x2 := x * x * (y - x)) in *. set (y2 := y * y * (y - x)) in *. set (l2 := lo * (y - x)) in *. set (h2 := hi * (y - x)) in *.
    clearbody k1 k2 x2 y2 l2 h2. rewrite !Qcmult_plus_distr_r, !Qcmult_1_r in V1, V2. clear -K1 K2 V1 V2 A' B'. split; qlra.
Qed.
(** integrate_1d_linspace is 99.9 % of the length of the interval times the mean over the 999 midpoints, *)
Theorem C51_integrate_value : forall g a b m, mean_1d_linspace (map g) a b 1000 = Some m ->
  integrate_1d_linspace (map g) a b = Q2Qc (999 # 1000) * ((b - a) * m).
Proof.
  intros g a b m H. rewrite mean_1d_eq in H by lia. assert (E : m = mean (map g (midpoints (linspace a b 1000)))) by congruence. clear H. subst m. unfold mean. rewrite map_length, midpoints_length, linspace_length. unfold integrate_1d_linspace.
  set (s := sumq (map g (midpoints (linspace a b 1000)))). clearbody s. replace (qn (1000 - 1)) with (Q2Qc 999) by (apply Qc_is_canon; vm_compute; reflexivity).
  replace (Q2Qc (999 # 1000)) with (Q2Qc 999 / Q2Qc 1000) by (apply Qc_is_canon; vm_compute; reflexivity). field. split; discriminate.
Qed.
Print Assumptions C51_integrate_value.
(** so it is NOT exact for constants: it multiplies the sum over 999 midpoints by
    (stop - start)/1000, so every constant is integrated to 99.9 % of its integral. *)
Theorem C51_integrate_constant_partial : forall c a b,
  integrate_1d_linspace (map (fun _ => c)) a b = c * (b - a) * Q2Qc (999 # 1000).
Proof. exact integrate_const. Qed.
Print Assumptions C51_integrate_constant_partial.
Theorem C51_integrate_refuted : forall c a b, c <> 0 -> a <> b ->
  integrate_1d_linspace (map (fun _ => c)) a b <> c * (b - a).
Proof. exact integrate_const_wrong. Qed.
Print Assumptions C51_integrate_refuted.

Example mean_1d_square : option_map this (mean_1d_linspace (map (fun x => x * x)) 0 1 100) = Some (39203 # 117612)%Q.
Proof. vm_compute. reflexivity. Qed.

(** * C52  Axis limits bound the data *)
Theorem C52_axis_limits : forall X, rows X <> [] ->
  exists mins maxs, axis_limits_from_data X = Ok (mins, maxs) /\ length mins = dim X /\ length maxs = dim X /\
    forall f, (f < dim X)%nat ->
      (forall r, In r (rows X) -> mins@f <= r@f <= maxs@f) /\
      (exists r, In r (rows X) /\ r@f = mins@f) /\ (exists r, In r (rows X) /\ r@f = maxs@f).
Proof. exact axis_limits_ok. Qed.
Print Assumptions C52_axis_limits.

Theorem C52_default_limits_drop_nothing : forall X mins maxs f, (f < dim X)%nat ->
  axis_limits_from_data X = Ok (mins, maxs) -> drop_points_outside X mins@f maxs@f f = X.
Proof. exact default_limits_drop_nothing. Qed.
Print Assumptions C52_default_limits_drop_nothing.

Theorem C52_dropping_keeps_exactly_the_inside_points : forall X lo hi f,
  dt (drop_points_outside X lo hi f) = dt X /\ dim (drop_points_outside X lo hi f) = dim X /\
  rows (drop_points_outside X lo hi f) = filter (fun r => (lo <=? r@f) && (r@f <=? hi)) (rows X).
Proof. exact drop_points_filter. Qed.
Print Assumptions C52_dropping_keeps_exactly_the_inside_points.

Definition ex52 := mkData Float64 2 [qs [1; 5]; qs [3; -2]; qs [2; 7]].
Example C52_instance : rmap (fun p => (show (fst p), show (snd p))) (axis_limits_from_data ex52) = Ok ([1; -2]%Q, [3; 7]%Q).
Proof. vm_compute. reflexivity. Qed.

(** Default feature names are distinct. *)
Theorem C52_feature_names_distinct : forall D, NoDup (get_feature_names D) /\ length (get_feature_names D) = D.
Proof. exact feature_names_distinct. Qed.
Print Assumptions C52_feature_names_distinct.

(** The name of feature i is "x_" followed by i in decimal. *)
Theorem C52_feature_names : forall D i, (i < D)%nat ->
  nth_error (get_feature_names D) i = Some (String.append "x_" (NilEmpty.string_of_uint (Nat.to_uint i))).
Proof.
  intros D i Hi. unfold get_feature_names, nat_to_string. rewrite nth_error_map, nth_error_nth' with (d := 0%nat) by (rewrite seq_length; exact Hi). now rewrite seq_nth by exact Hi.
Qed.
Print Assumptions C52_feature_names.
Example C52_names_instance : get_feature_names 12 = ["x_0"; "x_1"; "x_2"; "x_3"; "x_4"; "x_5"; "x_6"; "x_7"; "x_8"; "x_9"; "x_10"; "x_11"]%string.
Proof. reflexivity. Qed.
