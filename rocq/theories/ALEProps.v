(** Consequences for the curves returned by ALE/RHALE.eval (C19, C21, C22, C53). *)
From Verif Require Import Base Numpy Spec NumpyFacts Utils UtilsProofs FillProofs AccProofs LocalProofs ParamsProofs
  Helpers Integrate HelpersProofs Binning BinProofs GreedyProofs DPProofs LimitsProofs GlobalALE ALEState ALEHist ALEFit.
Open Scope Qc_scope.
Open Scope list_scope.

(** The curve drawn from limits [l] and bin effects [es], including what the code does beyond 1e8. *)
Definition acc_curve (l es : list Qc) (x : Qc) : Qc :=
  step_integral l es x + (if l@(length l - 1) <=? x then es@(length l - 2) * Qcmax 0 (x - BIG_M) else 0).

Lemma usable_unnorm xs es l p zs : usable xs es l -> compute_ale_params xs es l = Ok p ->
  eval_unnorm p zs = Ok (map (acc_curve l (ap_effect p)) zs).
Proof.
  intros (LE & L2 & I & C) H. destruct (ale_params_values xs es l LE L2 I C p H) as (E1 & E2 & _ & E3 & _).
  unfold eval_unnorm. rewrite E1, E2. now apply accumulated_effect_exact.
Qed.
Lemma usable_heter rt xs es l p zs : usable xs es l -> compute_ale_params xs es l = Ok p ->
  eval_heter rt p zs = Ok (map (acc_curve l (map rt (ap_var p))) zs).
Proof.
  intros (LE & L2 & I & C) H. destruct (ale_params_values xs es l LE L2 I C p H) as (E1 & E2 & _ & _ & E3 & _).
  unfold eval_heter. rewrite E1, E2. apply accumulated_effect_exact; auto. now rewrite map_length.
Qed.

Lemma acc_curve_left l es x : (2 <= length l)%nat -> increasing l -> x <= l@0 -> acc_curve l es x = 0.
Proof.
  intros H2 I H. unfold acc_curve. rewrite step_integral_left by assumption.
  assert (l@0 < l@(length l - 1)) by (apply I; lia). destruct (Qcleb_spec l@(length l - 1) x); [qlra|ring].
Qed.
Lemma acc_curve_mono l es x y : (2 <= length l)%nat -> increasing l -> length es = (length l - 1)%nat ->
  (forall k, (k < length l - 1)%nat -> 0 <= es@k) -> x <= y -> acc_curve l es x <= acc_curve l es y.
Proof.
  intros H2 I L P H. unfold acc_curve.
  assert (S : step_integral l es x <= step_integral l es y).
  { apply step_integral_mono; auto. intros e He. apply (In_nth _ _ 0) in He as (k & Hk & <-). apply P. lia. }
  pose proof (P (length l - 2)%nat ltac:(lia)) as Q. set (e := es@(length l - 2)) in *. clearbody e.
  assert (Qm : forall z, 0 <= Qcmax 0 z) by (intros z; destruct (Qcmax_cases 0 z) as [[]|[]]; qlra).
  destruct (Qcleb_spec l@(length l - 1) x); destruct (Qcleb_spec l@(length l - 1) y); try qlra.
  - assert (M : Qcmax 0 (x - BIG_M) <= Qcmax 0 (y - BIG_M)).
    { destruct (Qcmax_cases 0 (x - BIG_M)) as [[]|[]], (Qcmax_cases 0 (y - BIG_M)) as [[]|[]]; qlra. }
    pose proof (Qcmul_le_compat_l _ _ e Q M). qlra.
  - pose proof (Qcmult_le_0 e _ Q (Qm (y - BIG_M))). qlra.
Qed.
Lemma acc_curve_nonneg l es x : (2 <= length l)%nat -> increasing l -> length es = (length l - 1)%nat ->
  (forall k, (k < length l - 1)%nat -> 0 <= es@k) -> 0 <= acc_curve l es x.
Proof.
  intros H2 I L P. set (y := Qcmin x l@0). assert (Y1 : y <= x) by apply Qcmin_le_l. assert (Y2 : y <= l@0) by apply Qcmin_le_r.
  rewrite <- (acc_curve_left l es y H2 I Y2). now apply acc_curve_mono.
Qed.
Lemma acc_curve_inside l es x : x <= BIG_M \/ x < l@(length l - 1) -> acc_curve l es x = step_integral l es x.
Proof.
  intros H. unfold acc_curve. destruct (Qcleb_spec l@(length l - 1) x) as [L|L]; [|ring].
  destruct H as [H|H]; [|qlra]. destruct (Qcmax_cases 0 (x - BIG_M)) as [[A E]|[A E]]; rewrite E; [|ring].
  assert (Z : x - BIG_M = 0) by qlra. rewrite Z. ring.
Qed.
Lemma acc_curve_zero l es x : (2 <= length l)%nat -> increasing l ->
  (forall k, (k < length l - 1)%nat -> es@k = 0) -> acc_curve l es x = 0.
Proof.
  intros H2 I Z. unfold acc_curve. rewrite (step_integral_const l 0) by auto. rewrite Z by lia.
  destruct (l@(length l - 1) <=? x); ring.
Qed.

Lemma map_nth0 (h : Qc -> Qc) l k : (k < length l)%nat -> (map h l)@k = h l@k.
Proof. intros H. now apply nth_map_in. Qed.

(** heterogeneity of a usable fit *)
Lemma heter_shape rt xs es l p : (forall v, 0 <= v -> 0 <= rt v) -> usable xs es l -> compute_ale_params xs es l = Ok p ->
  let gh := acc_curve l (map rt (ap_var p)) in
  (forall x, 0 <= gh x) /\ (forall x y, x <= y -> gh x <= gh y) /\ (forall x, x <= (ap_limits p)@0 -> gh x = 0).
Proof.
  intros Hrt (LE & L2 & I & C) H. cbv zeta. destruct (ale_params_values xs es l LE L2 I C p H) as (E1 & E2 & _ & _ & E3 & _).
  assert (V : forall k, (k < length l - 1)%nat -> 0 <= (map rt (ap_var p))@k).
  { intros k Hk. rewrite map_nth0 by lia. apply Hrt. eapply ale_params_var_nonneg; eauto. }
  assert (L : length (map rt (ap_var p)) = (length l - 1)%nat) by now rewrite map_length.
  split; [intros x; now apply acc_curve_nonneg|]. split; [intros x y; now apply acc_curve_mono|]. rewrite E1. intros x. now apply acc_curve_left.
Qed.

(** all the effects of a bin agree: no variance *)
Lemma const_members_var xs es l p : usable xs es l -> compute_ale_params xs es l = Ok p ->
  (forall k, (k < length l - 1)%nat -> exists v, forall e, In e (members l xs es k) -> e = v) ->
  forall k, (k < length l - 1)%nat -> (ap_var p)@k = 0.
Proof.
  intros (LE & L2 & I & C) H HM k Hk. destruct (ale_params_values xs es l LE L2 I C p H) as (_ & _ & _ & _ & _ & _ & _ & _ & V).
  assert (Q : 0 <= (ap_var p)@k <= 0); [|qlra]. apply V; [|exact Hk]. intros j Hj Hm.
  assert (Z : variance (members l xs es j) = 0).
  { apply variance_zero_iff; [intros E; rewrite E in Hm; simpl in Hm; lia|]. destruct (HM j Hj) as (v & Hv). intros a b Ha Hb. rewrite (Hv a Ha), (Hv b Hb). reflexivity. }
  rewrite Z. split; apply Qcle_refl.
Qed.
Lemma const_members_heter rt xs es l p x : rt 0 = 0 -> usable xs es l -> compute_ale_params xs es l = Ok p ->
  (forall k, (k < length l - 1)%nat -> exists v, forall e, In e (members l xs es k) -> e = v) ->
  acc_curve l (map rt (ap_var p)) x = 0.
Proof.
  intros R U H HM. pose proof (const_members_var xs es l p U H HM) as V. destruct U as (LE & L2 & I & C).
  destruct (ale_params_values xs es l LE L2 I C p H) as (E1 & E2 & _ & _ & E3 & _).
  apply acc_curve_zero; auto. intros k Hk. rewrite map_nth0 by lia. rewrite V by exact Hk. exact R.
Qed.

Lemma members_in l xs es k e : In e (members l xs es k) -> In e es.
Proof. unfold members. intros H. apply in_map_iff in H as ([a b] & <- & H). apply filter_In in H as (H & _). now apply in_combine_r in H. Qed.

(** the effects are constantly [a] (C21) *)
Lemma const_effects xs es l p a : usable xs es l -> compute_ale_params xs es l = Ok p -> (forall e, In e es -> e = a) ->
  (forall k, (k < length l - 1)%nat -> (ap_effect p)@k = a) /\
  forall x, l@0 <= x <= l@(length l - 1) -> x <= BIG_M \/ x < l@(length l - 1) -> acc_curve l (ap_effect p) x = a * (x - l@0).
Proof.
  intros (LE & L2 & I & C) H HA. destruct (ale_params_values xs es l LE L2 I C p H) as (E1 & E2 & _ & E3 & _ & _ & _ & V & _).
  assert (K : forall k, (k < length l - 1)%nat -> (ap_effect p)@k = a).
  { intros k Hk. assert (Q : a <= (ap_effect p)@k <= a); [|qlra]. apply V; [|exact Hk]. intros j Hj Hm.
    rewrite (mean_const a) by (auto; intros e He; apply HA; eapply members_in; eauto). split; apply Qcle_refl. }
  split; [exact K|]. intros x Hx HB. rewrite acc_curve_inside by exact HB. rewrite (step_integral_const l a) by auto.
  rewrite clip_mid by tauto. reflexivity.
Qed.

(** *** ALE of an affine model (C19) *)
Lemma in_bin_add_last l x k : (2 <= length l)%nat -> increasing l -> covered l x -> (k < length l - 1)%nat ->
  in_bin (add_last l EPS) k x = in_bin l k x.
Proof.
  intros H2 I C Hk. pose proof EPS_pos as EP.
  assert (I' : increasing (add_last l EPS)) by (apply add_last_increasing; [qlra|exact I]).
  unfold in_bin. rewrite add_last_length, !add_last_nth by lia. destruct (Nat.eqb_spec k (length l - 1)); [lia|].
  destruct C as (C1 & C2). f_equal. destruct (Nat.eqb_spec (S k) (length l - 1)) as [E|E].
  - replace (Nat.eqb (k + 2) (length l)) with true by (symmetry; apply Nat.eqb_eq; lia). rewrite <- E in C2.
    destruct (Qcltb_spec x (l@(S k) + EPS)); [|qlra]. destruct (Qcltb_spec x l@(S k)); [reflexivity|].
    destruct (Qceqb_spec x l@(S k)) as [Q|Q]; [reflexivity|]. exfalso. apply Q. qlra.
  - replace (Nat.eqb (k + 2) (length l)) with false by (symmetry; apply Nat.eqb_neq; lia). reflexivity.
Qed.

Section Affine.
Variables (X : data) (b0 : Qc) (a l : list Qc) (s : nat) (es : list Qc).
Hypothesis Hs : (s < dim X)%nat.
Hypothesis Hdt : dt X = Float64.
Hypothesis Hwf : wf_data X.
Hypothesis Ha : length a = dim X.
Hypothesis Hl : (2 <= length l)%nat.
Hypothesis Hi : increasing l.
Hypothesis Hc : forall r, In r (rows X) -> covered l r@s.
Hypothesis Hes : snd (compute_local_effects X (map (affine b0 a)) l s) = Ok es.
Let l' := add_last l EPS.

Lemma affine_local_members k e : (k < length l - 1)%nat -> In e (members l' (col (rows X) s) es k) ->
  e = a@s * ((l'@(S k) - l'@k) / (l'@1 - l'@0)).
Proof.
  intros Hk Hin. assert (Hne : rows X <> []).
  { intros E. rewrite E in Hin. unfold members in Hin. simpl in Hin. destruct Hin. }
  rewrite (compute_local_effects_eq X (affine b0 a) l s Hs Hne Hl Hi Hc) in Hes. cbn [snd] in Hes. injection Hes as Ees.
  unfold members in Hin. rewrite <- Ees in Hin. unfold col in Hin. rewrite combine_self_map in Hin.
  apply in_map_iff in Hin as ([x e'] & <- & Hin). apply filter_In in Hin as (Hin & Hb). apply in_map_iff in Hin as (r & Er & Hr).
  injection Er as Ex Ee. cbn [fst snd] in *. subst x. unfold l' in Hb. rewrite in_bin_add_last in Hb by auto.
  rewrite <- (bnat_unique l r@s k Hl Hi (Hc r Hr) Hk Hb) in Ee. fold l' in Ee. rewrite Hdt in Ee. cbn [store] in Ee. rewrite <- Ee.
  assert (Lr : length r = dim X) by now apply Hwf.
  rewrite !affine_with by (rewrite ?Ha, ?Lr; exact Hs).
  assert (l'@0 < l'@1). { apply add_last_increasing; [pose proof EPS_pos; qlra|exact Hi|lia|rewrite add_last_length; lia]. }
  field. intros E. qlra.
Qed.
End Affine.

(** uniform widths: the bin effects are [a_s] up to |a_s| * EPS / h *)
Lemma affine_uniform_effects xs es l a h p : usable xs es (add_last l EPS) -> (2 <= length l)%nat -> 0 < h ->
  (forall k, (k < length l - 1)%nat -> l@(S k) - l@k = h) ->
  (forall k e, (k < length l - 1)%nat -> In e (members (add_last l EPS) xs es k) ->
     e = a * (((add_last l EPS)@(S k) - (add_last l EPS)@k) / ((add_last l EPS)@1 - (add_last l EPS)@0))) ->
  compute_ale_params xs es (add_last l EPS) = Ok p ->
  forall k, (k < length l - 1)%nat -> Qcabs ((ap_effect p)@k - a) <= Qcabs a * (EPS / h).
Proof.
  intros U H2 Hh Hw HM HP k Hk. destruct U as (LE & L2 & I & C).
  destruct (ale_params_values xs es _ LE L2 I C p HP) as (_ & _ & _ & _ & _ & _ & _ & V & _).
  pose proof EPS_pos as EP. set (M := Qcabs a * (EPS / h)).
  assert (EH : 0 < EPS / h) by now apply Qcdiv_lt_0.
  assert (M0 : 0 <= M). { unfold M. apply Qcmult_le_0; [|qlra]. unfold Qcabs. destruct (Qcleb_spec 0 a); qlra. }
  assert (B : a - M <= (ap_effect p)@k <= a + M).
  { apply V; [|rewrite add_last_length; exact Hk]. intros j Hj Hm. rewrite add_last_length in Hj.
    set (e := a * (((add_last l EPS)@(S j) - (add_last l EPS)@j) / ((add_last l EPS)@1 - (add_last l EPS)@0))).
    rewrite (mean_const e) by (auto; intros e' He'; apply (HM j); auto). unfold e.
    rewrite !add_last_nth by lia. destruct (Nat.eqb_spec j (length l - 1)); [lia|]. destruct (Nat.eqb_spec 0 (length l - 1)); [lia|].
    pose proof (Hw j Hj) as Wj. pose proof (Hw 0%nat ltac:(lia)) as W0.
    assert (AB : - M <= a * (EPS / h) <= M).
    { unfold M. pose proof (Qcabs_bounds a) as (B1 & B2). set (q := EPS / h) in *. clearbody q. set (z := Qcabs a) in *. clearbody z. split; qnra. }
    destruct (Nat.eqb_spec (S j) (length l - 1)) as [E|E]; destruct (Nat.eqb_spec 1 (length l - 1)) as [E1|E1].
    - assert (j = 0%nat) by lia. subst j. replace ((l@1 + EPS - l@0) / (l@1 + EPS - l@0)) with 1; [split; qlra|]. field. intros Q. qlra.
    - replace (l@(S j) + EPS - l@j) with (h + EPS) by (rewrite <- Wj; ring). rewrite W0.
      replace (a * ((h + EPS) / h)) with (a + a * (EPS / h)) by (field; qlra). split; qlra.
    - lia.
    - rewrite Wj, W0. replace (h / h) with 1 by (field; qlra). split; qlra. }
  apply Qcabs_nonneg_le; qlra.
Qed.
