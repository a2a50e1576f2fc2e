(** Properties C88, C89: the scipy-based expectations and the parameter dictionaries. *)
From Verif Require Import Base Numpy Spec NumpyFacts Utils Helpers Quad.
Open Scope Qc_scope.
Open Scope list_scope.

(** * C88  The expectations fix the feature of interest and integrate the others over their own limits *)
(** The point with [xs] for feature [s] and the other features, in order, from [ts]. *)
Definition at_feature (s : nat) (xs : Qc) (ts : list Qc) : list Qc := firstn s ts ++ xs :: skipn s ts.
(** The other features of three, in order. *)
Definition others (s : nat) : list nat := filter (fun k => negb (Nat.eqb k s)) (seq 0 3).
(** The integral of g(x) p(x_c) over the limits of the two other features (the outer integral over the last one), with
    the quadrature [quad]. *)
Definition box_expectation (quad : quadrature) (g : list Qc -> Qc) (p : Qc -> Qc -> Qc) (s : nat) (xs : Qc) (mins maxs : list Qc) : res (Qc * Qc) :=
  let i := nth 0 (others s) 0%nat in let j := nth 1 (others s) 0%nat in
  quad (fun tj => rmap fst (quad (fun ti => Ok (g (at_feature s xs [ti; tj]) * p ti tj)) (At mins@i) (At maxs@i))) (At mins@j) (At maxs@j).
(** A quadrature depends on the values of the integrand only. *)
Definition extensional (quad : quadrature) : Prop := forall F G a b, (forall t, F t = G t) -> quad F a b = quad G a b.

Theorem C88_1D : forall quad g p s xs a b, (s < 2)%nat -> extensional quad ->
  expectation_1D quad xs (map g) p s a b = quad (fun t => Ok (g (at_feature s xs [t]) * p t)) a b.
Proof. intros quad g p s xs a b Hs EX. destruct s as [|[|s]]; [reflexivity|reflexivity|lia]. Qed.
Print Assumptions C88_1D.
Theorem C88_1D_integral : forall quad g a b, integrate_1d_quad quad (map g) a b = rmap fst (quad (fun t => Ok (g t)) (At a) (At b)).
Proof. reflexivity. Qed.
Print Assumptions C88_1D_integral.
(** expecation_2D is right for feature 0, *)
Theorem C88_2D_first : forall quad g p xs mins maxs, extensional quad -> length mins = 3%nat -> length maxs = 3%nat ->
  expecation_2D quad xs (map g) p 0 mins maxs = box_expectation quad g p 0 xs mins maxs.
Proof.
  intros quad g p xs mins maxs EX L1 L2. unfold expecation_2D, dblquad, box_expectation. rewrite !(getn_ok _ _ 0) by lia. cbn [bind rmap].
  apply EX. intros tj. cbn [bind rmap]. f_equal.
Qed.
Print Assumptions C88_2D_first.
(** for the features 1 and 2 only if the limits it uses happen to be the right ones (the limits of the features 1 and 2,
    whatever s, in the place of those of the two other features), *)
Theorem C88_2D_partial : forall quad g p s xs mins maxs, extensional quad -> length mins = 3%nat -> length maxs = 3%nat -> (s < 3)%nat ->
  (forall k, (k < 2)%nat -> mins@(nth k (others s) 0%nat) = mins@(k + 1) /\ maxs@(nth k (others s) 0%nat) = maxs@(k + 1)) ->
  expecation_2D quad xs (map g) p s mins maxs = box_expectation quad g p s xs mins maxs.
Proof.
  intros quad g p s xs mins maxs EX L1 L2 Hs HL. destruct (HL 0%nat ltac:(lia)) as [A1 A2]. destruct (HL 1%nat ltac:(lia)) as [B1 B2]. clear HL.
  unfold expecation_2D, dblquad, box_expectation. rewrite !(getn_ok _ _ 0) by lia. cbn [bind rmap]. simpl (0 + 1)%nat in *. simpl (1 + 1)%nat in *. rewrite A1, A2, B1, B2.
  apply EX. intros tj. cbn [bind rmap]. f_equal. destruct s as [|[|[|s]]]; [reflexivity..|lia].
Qed.
Print Assumptions C88_2D_partial.
(** and wrong otherwise: for s = 1 feature 0 is integrated over the limits of feature 1. For a constant function and a
    constant density any quadrature that is right on constants tells them apart. *)
Theorem C88_2D_refuted : forall quad e, extensional quad -> (forall c a b, quad (fun _ => Ok c) (At a) (At b) = Ok (c * (b - a), e)) ->
  let mins := [0; 0; 0] in let maxs := [1; Q2Qc 5; 1] in
  forall xs, rmap fst (box_expectation quad (fun _ => 1) (fun _ _ => 1) 1 xs mins maxs) = Ok 1 /\
  rmap fst (expecation_2D quad xs (map (fun _ => 1)) (fun _ _ => 1) 1 mins maxs) = Ok (Q2Qc 5).
Proof.
  intros quad e EX HC mins maxs xs. split.
  - unfold box_expectation. cbn [others seq filter Nat.eqb negb nth]. rewrite (EX _ (fun _ => Ok 1)).
    + rewrite HC. simpl. f_equal; try ring.
    + intros tj. rewrite (EX _ (fun _ => Ok 1)) by (intros t; f_equal; ring). unfold mins, maxs. cbn [nth]. rewrite HC. simpl. f_equal; try ring.
  - unfold expecation_2D, dblquad. cbn [getn mins maxs bind rmap nth_error]. rewrite (EX _ (fun _ => Ok (Q2Qc 5))).
    + rewrite HC. simpl. f_equal; try ring.
    + intros tj. cbn [getn mins maxs bind rmap nth_error]. rewrite (EX _ (fun _ => Ok 1)) by (intros t; simpl; f_equal; ring). rewrite HC. simpl. f_equal; try ring.
Qed.
Print Assumptions C88_2D_refuted.
(** Other features raise, if the quadrature evaluates the function at all. *)
Theorem C88_2D_feature : forall quad func p s xs mins maxs, (3 <= s)%nat -> length mins = 3%nat -> length maxs = 3%nat -> extensional quad ->
  (forall x a b, quad (fun _ => Raise x) a b = Raise x) -> expecation_2D quad xs func p s mins maxs = Raise UnboundLocalError.
Proof.
  intros quad func p s xs mins maxs Hs L1 L2 EX HR. unfold expecation_2D, dblquad. rewrite !(getn_ok _ _ 0) by lia. cbn [bind rmap].
  rewrite (EX _ (fun _ => Raise UnboundLocalError)); [apply HR|]. intros t. cbn [bind rmap].
  rewrite (EX _ (fun _ => Raise UnboundLocalError)) by (intros u; destruct s as [|[|[|s]]]; [lia..|reflexivity]). now rewrite HR.
Qed.
Print Assumptions C88_2D_feature.
(** Such quadratures exist: the midpoint rule. *)
Definition midpoint_rule : quadrature := fun F a b => match a, b with At u, At v => y <- F ((u + v) / Q2Qc 2) ;; Ok (y * (v - u), 0) | _, _ => rmap (fun y => (y, 0)) (F 0) end.
Example C88_instance : extensional midpoint_rule /\ (forall c a b, midpoint_rule (fun _ => Ok c) (At a) (At b) = Ok (c * (b - a), 0)) /\
  (forall x a b, midpoint_rule (fun _ => Raise x) a b = Raise x) /\
  rmap (fun r => this (fst r)) (expecation_2D midpoint_rule 0 (map (fun r => r@0 + r@1 * r@2)) (fun _ _ => 1) 0 (qs [0; 0; 0]) (qs [1; 2; 4])) = Ok 16%Q.
Proof.
  split; [|split; [reflexivity|split]].
  - intros F G a b H. unfold midpoint_rule. destruct a, b; rewrite H; reflexivity.
  - intros x [|u|] [|v|]; reflexivity.
  - vm_compute. reflexivity.
Qed.

(** * C89  Parameter dictionaries are validated and completed *)
(** [d'] is [d] with the missing one of the keys [defaults] added; the others are untouched. *)
Definition completed (d d' : dict) (defaults : list (string * pyval)) : Prop :=
  forall k, lookup k d' = match lookup k d with Some v => Some v | None => lookup k defaults end.
Lemma lookup_app k d e : lookup k (d ++ e) = match lookup k d with Some v => Some v | None => lookup k e end.
Proof. unfold lookup. induction d as [|[a b] d IH]; [reflexivity|]. simpl. destruct (String.eqb a k); [reflexivity|exact IH]. Qed.
Lemma complete_spec k ok v d d' : complete k ok v d = Ok d' -> completed d d' [(k, v)] /\ match lookup k d with Some a => ok a = true | None => True end.
Proof.
  unfold complete. destruct (lookup k d) as [a|] eqn:E.
  - destruct (ok a) eqn:O; [|discriminate]. intros H. injection H as <-. split; [|reflexivity]. intros q. destruct (lookup q d) eqn:Q; [reflexivity|]. unfold lookup. simpl.
    destruct (String.eqb k q) eqn:KQ; [|reflexivity]. apply String.eqb_eq in KQ. subst q. congruence.
  - intros H. injection H as <-. split; [|exact I]. intros q. apply lookup_app.
Qed.
Lemma complete_raises k ok v d e : complete k ok v d = Raise e -> e = AssertionError /\ exists a, lookup k d = Some a /\ ok a = false.
Proof. unfold complete. destruct (lookup k d) as [a|] eqn:E; [|discriminate]. destruct (ok a) eqn:O; [discriminate|]. intros H. injection H as <-. eauto. Qed.

(** The given values are kept, the missing ones are "fixed", 100, 20 and None; a wrong method or a number of bins that is
    not an int is rejected, and nothing else. *)
Lemma prep_dale_checks : forall par, let d := match par with None => [] | Some d => d end in
  let valid k ok := match lookup k d with Some v => ok v = true | None => True end in
  (forall d', prep_dale_fit_params par = Ok d' ->
     completed d d' [("bin_method", PyStr "fixed"); ("nof_bins", PyInt 100); ("max_nof_bins", PyInt 20); ("min_points_per_bin", PyOther)]%string /\
     valid "bin_method"%string is_method /\ valid "nof_bins"%string is_int /\ valid "max_nof_bins"%string is_int) /\
  (forall e, prep_dale_fit_params par = Raise e -> e = AssertionError /\ ~ (valid "bin_method"%string is_method /\ valid "nof_bins"%string is_int /\ valid "max_nof_bins"%string is_int)).
Proof.
  intros par d valid. unfold prep_dale_fit_params. cbv zeta. change (match par with Some d0 => d0 | None => [] end : dict) with (d : dict) in *. unfold dict in d. change (match par with | None => [] | Some d0 => d0 end) with d.
  destruct (complete "bin_method" is_method (PyStr "fixed") d) as [d1|e1] eqn:E1; cbn [bind].
  2:{ split; [discriminate|]. intros e H. injection H as <-. apply complete_raises in E1 as (-> & a & L & O). split; [reflexivity|]. intros (V & _). unfold valid in V. rewrite L in V. congruence. }
  apply complete_spec in E1 as (C1 & V1).
  destruct (complete "nof_bins" is_int (PyInt 100) d1) as [d2|e2] eqn:E2; cbn [bind].
  2:{ split; [discriminate|]. intros e H. injection H as <-. apply complete_raises in E2 as (-> & a & L & O). split; [reflexivity|]. intros (_ & V & _). unfold valid in V. rewrite C1 in L.
      destruct (lookup "nof_bins" d); [injection L as ->; congruence|discriminate]. }
  apply complete_spec in E2 as (C2 & V2).
  destruct (complete "max_nof_bins" is_int (PyInt 20) d2) as [d3|e3] eqn:E3; cbn [bind].
  2:{ split; [discriminate|]. intros e H. injection H as <-. apply complete_raises in E3 as (-> & a & L & O). split; [reflexivity|]. intros (_ & _ & V). unfold valid in V. rewrite C2, C1 in L.
      destruct (lookup "max_nof_bins" d); [injection L as ->; congruence|discriminate]. }
  apply complete_spec in E3 as (C3 & V3).
  assert (M3 : exists v, lookup "max_nof_bins" d3 = Some v /\ is_int v = true).
  { rewrite C3. destruct (lookup "max_nof_bins" d2) as [v|]; [now exists v|]. exists (PyInt 20). split; reflexivity. }
  destruct M3 as (v3 & M3 & I3). rewrite M3, I3.
  split.
  - intros d' H. apply complete_spec in H as (C4 & _). split; [|split; [exact V1|split]].
    + intros k. rewrite C4, C3, C2, C1. destruct (lookup k d); [reflexivity|]. unfold lookup. cbn [find fst].
      destruct (String.eqb "bin_method" k); [reflexivity|]. destruct (String.eqb "nof_bins" k); [reflexivity|]. destruct (String.eqb "max_nof_bins" k); reflexivity.
    + unfold valid. rewrite C1 in V2. destruct (lookup "nof_bins" d); [exact V2|exact I].
    + unfold valid. rewrite C2, C1 in V3. destruct (lookup "max_nof_bins" d); [exact V3|exact I].
  - intros e H. apply complete_raises in H as (_ & a & _ & F). discriminate.
Qed.
(** In particular min_points_per_bin is not validated. *)
(** what is admitted, in words: the three names of methods; integers (bool is not an int for `type(x) == int`) *)
Definition a_method (v : pyval) : Prop := v = PyStr "fixed" \/ v = PyStr "greedy" \/ v = PyStr "dp".
Definition an_int (v : pyval) : Prop := exists z, v = PyInt z.
Lemma is_method_spec v : is_method v = true <-> a_method v.
Proof.
  unfold is_method, a_method. destruct v as [b|s|z|l|]; try (split; [discriminate|intros [H|[H|H]]; discriminate]).
  cbn [existsb]. rewrite !orb_true_iff, !String.eqb_eq. split.
  - intros [->|[->|[->|H]]]; auto. discriminate.
  - intros [H|[H|H]]; injection H as ->; auto.
Qed.
Lemma is_int_spec v : is_int v = true <-> an_int v.
Proof. unfold is_int, an_int. destruct v; split; intros H; try discriminate; try (destruct H; discriminate); eauto. Qed.

Theorem C89_dale : forall par, let d := match par with None => [] | Some d => d end in
  let valid k (ok : pyval -> Prop) := match lookup k d with Some v => ok v | None => True end in
  (forall d', prep_dale_fit_params par = Ok d' ->
     completed d d' [("bin_method", PyStr "fixed"); ("nof_bins", PyInt 100); ("max_nof_bins", PyInt 20); ("min_points_per_bin", PyOther)]%string /\
     valid "bin_method"%string a_method /\ valid "nof_bins"%string an_int /\ valid "max_nof_bins"%string an_int) /\
  (forall e, prep_dale_fit_params par = Raise e -> e = AssertionError /\ ~ (valid "bin_method"%string a_method /\ valid "nof_bins"%string an_int /\ valid "max_nof_bins"%string an_int)).
Proof.
  intros par d valid. destruct (prep_dale_checks par) as [H1 H2].
  change (match par with None => [] | Some d0 => d0 end) with d in H1, H2.
  assert (V : forall k b (P : pyval -> Prop), (forall v, b v = true <-> P v) -> (match lookup k d with Some v => b v = true | None => True end <-> valid k P)).
  { intros k b P E. unfold valid. destruct (lookup k d); [apply E|reflexivity]. }
  split.
  - intros d' H. destruct (H1 d' H) as (C & A & B & M). split; [exact C|]. rewrite <- (V _ is_method), <- !(V _ is_int) by (apply is_method_spec || apply is_int_spec). auto.
  - intros e H. destruct (H2 e H) as (E & N). split; [exact E|]. rewrite <- (V _ is_method), <- !(V _ is_int) by (apply is_method_spec || apply is_int_spec). exact N.
Qed.
Print Assumptions C89_dale.
Theorem C89_min_points_refuted : exists d', prep_dale_fit_params (Some [("min_points_per_bin", PyStr "many")])%string = Ok d' /\ lookup "min_points_per_bin" d' = Some (PyStr "many").
Proof. eexists. split; reflexivity. Qed.
Print Assumptions C89_min_points_refuted.
Theorem C89_ale : forall d, (forall d', prep_ale_fit_params (Some d) = Ok d' -> completed d d' [("nof_bins", PyInt 100)]%string /\ match lookup "nof_bins" d with Some v => an_int v | None => True end) /\
  (forall e, prep_ale_fit_params (Some d) = Raise e -> e = AssertionError /\ exists v, lookup "nof_bins" d = Some v /\ ~ an_int v) /\
  prep_ale_fit_params None = Raise AttributeError.
Proof.
  intros d. split; [|split; [|reflexivity]].
  - intros d' H. destruct (complete_spec _ _ _ _ _ H) as [C V]. split; [exact C|]. destruct (lookup _ d); [now apply is_int_spec|exact I].
  - intros e H. destruct (complete_raises _ _ _ _ _ H) as (E & v & L & B). split; [exact E|]. exists v. split; [exact L|]. rewrite <- is_int_spec. congruence.
Qed.
Print Assumptions C89_ale.
Example C89_instance : prep_dale_fit_params (Some [("nof_bins", PyInt 7)])%string = Ok [("nof_bins", PyInt 7); ("bin_method", PyStr "fixed"); ("max_nof_bins", PyInt 20); ("min_points_per_bin", PyOther)]%string /\
  prep_dale_fit_params (Some [("nof_bins", PyStr "7")])%string = Raise AssertionError.
Proof. split; reflexivity. Qed.
