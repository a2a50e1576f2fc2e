(** From a successful eval after any history to the fitted parameters (C19-C22). *)
From Verif Require Import Base Numpy Spec NumpyFacts Utils UtilsProofs FillProofs AccProofs LocalProofs ParamsProofs
  Helpers Integrate HelpersProofs Binning BinProofs GreedyProofs DPProofs LimitsProofs GlobalALE ALEState ALEHist ALEFit ALEProps ALESuccess.
Open Scope Qc_scope.
Open Scope list_scope.

Lemma eval_after_history c E0 (M : method -> Prop) (P : nat -> ale_params -> Prop) rt ks f xs het cv st' y h :
  M (default_method c) -> (forall f m p, M m -> pfit c E0 f m = Ok p -> P f p) -> Forall (methods_ok M) ks ->
  eval c rt (run c rt (fresh E0) ks) f xs het cv = (st', Ok (y, h)) ->
  exists ce p nc g, prep_cent cv = Ok ce /\ st_fe st' f = Some (p, nc) /\ P f p /\ lo_of c f < hi_of c f /\ (f < dim (c_data c))%nat /\
    (forall zs, eval_unnorm p zs = Ok (map g zs)) /\
    y = map (fun x => g x - shift_of c f ce g) xs /\
    (het = true -> exists gh, (forall zs, eval_heter rt p zs = Ok (map gh zs)) /\ h = Some (map gh xs)) /\ (het = false -> h = None).
Proof.
  intros Md HP F H.
  pose proof (run_inv c rt ks (fresh E0) (inv_fresh c E0)) as I.
  destruct (eval_ok c rt _ f xs het cv st' y h I H) as (ce & p & nc & g & A1 & A2 & A3 & A4 & A5 & A6 & A7 & A8 & A9 & A10 & A11 & A12 & _).
  exists ce, p, nc, g. split; [exact A1|]. split; [exact A2|]. split; [|auto 10].
  pose proof (run_pinv c E0 M P Md HP rt ks (fresh E0) F (pinv_fresh c E0 P)) as PI.
  pose proof (eval_pinv c E0 M P Md HP rt _ f xs het cv PI) as (_ & Q). rewrite H in Q. cbn [fst] in Q. eapply Q; eauto.
Qed.

Lemma default_bins_pos c : bins_pos (default_method c).
Proof. exact I. Qed.

(** every fit is usable *)
Lemma pfit_usable c E0 f m p : bins_pos m -> pfit c E0 f m = Ok p -> lo_of c f < hi_of c f ->
  exists es l, usable (fit_xs c f) es l /\ compute_ale_params (fit_xs c f) es l = Ok p.
Proof.
  intros BP H LH. unfold pfit in H. destruct (fit_feature c (fresh E0) f m) as [st r] eqn:F. cbn [snd] in H. subst r.
  eapply fit_feature_usable; eauto.
Qed.

(** RHALE with constant effects *)
Lemma pfit_const c jac E0 E a f m p : c_kind c = KRHALE jac -> match E0 with Some e => Ok e | None => compile c jac end = Ok E ->
  (forall r, In r E -> r@f = a) -> bins_pos m -> pfit c E0 f m = Ok p -> lo_of c f < hi_of c f ->
  exists es l, usable (fit_xs c f) es l /\ compute_ale_params (fit_xs c f) es l = Ok p /\ forall e, In e es -> e = a.
Proof.
  intros K HE HA BP H LH. unfold pfit, fit_feature in H. rewrite K in H. change (st_eff (fresh E0)) with E0 in H. rewrite HE in H. cbn [snd] in H.
  destruct (rhale_fit_ok c E f m p BP LH H) as (e & l & Ke & P & U & _). exists (col e f), l. split; [exact U|]. split; [exact P|].
  intros v Hv. apply col_in in Hv as (r & Hr & <-). apply HA. eapply kept_effects_in; eauto.
Qed.

(** ALE of an affine model *)
Lemma pfit_affine c b a E0 f m p : c_kind c = KALE -> c_model c = map (affine b a) -> dt (c_data c) = Float64 -> wf_data (c_data c) ->
  length a = dim (c_data c) -> bins_pos m -> pfit c E0 f m = Ok p -> lo_of c f < hi_of c f ->
  exists n mp cl l es, ale_method m = Some (MFixed n mp cl) /\ (1 <= n)%nat /\
    fixed_find (mkB (fit_xs c f) [] (lo_of c f) (hi_of c f)) n mp cl = Ok (LArr l) /\ (2 <= length l)%nat /\ increasing l /\
    usable (fit_xs c f) es (add_last l EPS) /\ compute_ale_params (fit_xs c f) es (add_last l EPS) = Ok p /\
    forall k e, (k < length l - 1)%nat -> In e (members (add_last l EPS) (fit_xs c f) es k) ->
      e = a@f * (((add_last l EPS)@(S k) - (add_last l EPS)@k) / ((add_last l EPS)@1 - (add_last l EPS)@0)).
Proof.
  intros K Hm Hdt Hwf Ha BP H LH.
  pose proof H as H0. unfold pfit in H0. destruct (fit_feature c (fresh E0) f m) as [st r] eqn:FF. cbn [snd] in H0. subst r.
  destruct (fit_feature_limits c _ f m st p FF) as (Hf & _). unfold fit_feature in FF. rewrite K in FF. injection FF as _ FF.
  destruct (ale_fit_ok c f m p BP LH FF) as (n & mp & cl & l & es & MM & Hn & F & U0 & CL & U & P).
  destruct U0 as (LE & L2 & I & C). exists n, mp, cl, l, es. do 7 (split; [assumption|]).
  intros k e Hk Hin. rewrite Hm in CL.
  apply (affine_local_members (kept c (lo_of c f) (hi_of c f) f) b a l f es); auto.
  - intros r Hr. apply Hwf. unfold kept in Hr. cbn [rows] in Hr. apply filter_In in Hr. tauto.
  - intros r Hr. apply C. unfold fit_xs, col. apply in_map_iff. eauto.
Qed.

Lemma grid_width lo hi K k : (1 <= K)%nat -> grid lo hi K (S k) - grid lo hi K k = (hi - lo) / qn K.
Proof. intros H. unfold grid. rewrite qn_S. ring. Qed.

(** the curve of a non-categorical affine ALE *)
Lemma affine_curve_bound c b a E0 f m p x N : c_kind c = KALE -> c_model c = map (affine b a) -> dt (c_data c) = Float64 -> wf_data (c_data c) ->
  length a = dim (c_data c) -> bins_pos m -> pfit c E0 f m = Ok p -> lo_of c f < hi_of c f ->
  (forall n mp cl, ale_method m = Some (MFixed n mp cl) -> (cl < length (unique (fit_xs c f)))%nat /\ (n <= N)%nat) ->
  lo_of c f <= x <= hi_of c f ->
  exists g, (forall zs, eval_unnorm p zs = Ok (map g zs)) /\ Qcabs (g x - a@f * (x - lo_of c f)) <= Qcabs a@f * (EPS * qn N).
Proof.
  intros K Hm Hdt Hwf Ha BP H LH HM Hx.
  destruct (pfit_affine c b a E0 f m p K Hm Hdt Hwf Ha BP H LH) as (n & mp & cl & l & es & MM & Hn & F & L2 & I & U & P & HMem).
  destruct (HM n mp cl MM) as (Hcl & HnN).
  destruct (fixed_find_inv _ _ _ _ _ F) as (_ & [(Q & _)|(_ & El)]); cbn [b_xs b_lo b_hi] in *; [lia|].
  set (h := (hi_of c f - lo_of c f) / qn n). assert (Hq : 0 < qn n) by (apply qn_pos; lia).
  assert (Hh : 0 < h) by (apply Qcdiv_lt_0; [qlra|exact Hq]).
  assert (Ll : length l = S n) by (rewrite El, linspace_length; lia).
  assert (W : forall k, (k < length l - 1)%nat -> l@(S k) - l@k = h).
  { intros k Hk. rewrite El, !linspace_grid by lia. now apply grid_width. }
  pose proof (affine_uniform_effects (fit_xs c f) es l a@f h p U L2 Hh W HMem P) as EF.
  exists (acc_curve (add_last l EPS) (ap_effect p)). split; [intros zs; eapply usable_unnorm; eauto|].
  pose proof EPS_pos as EP.
  assert (F0 : (add_last l EPS)@0 = lo_of c f).
  { rewrite add_last_nth by lia. destruct (Nat.eqb_spec 0 (length l - 1)); [lia|]. rewrite El. apply linspace_first. lia. }
  assert (FL : (add_last l EPS)@(length (add_last l EPS) - 1) = hi_of c f + EPS).
  { rewrite add_last_length, add_last_nth by lia. rewrite Nat.eqb_refl. f_equal. rewrite El, linspace_length. apply linspace_last. lia. }
  rewrite acc_curve_inside by (right; rewrite FL; qlra).
  destruct U as (LE & L2' & I' & C').
  pose proof (step_integral_near (add_last l EPS) (ap_effect p) a@f (Qcabs a@f * (EPS / h)) x I' L2') as SN.
  rewrite add_last_length in SN. specialize (SN EF). rewrite <- (add_last_length l EPS) in SN. rewrite F0, FL in SN. specialize (SN ltac:(split; qlra)).
  eapply Qcle_trans; [exact SN|].
  replace (Qcabs a@f * (EPS / h) * (x - lo_of c f)) with (Qcabs a@f * (EPS * (qn n * ((x - lo_of c f) / (hi_of c f - lo_of c f))))).
  2:{ unfold h. field. split; intros E; qlra. }
  assert (A0 : 0 <= Qcabs a@f) by (unfold Qcabs; destruct (Qcleb_spec 0 a@f); qlra).
  apply Qcmul_le_compat_l; [exact A0|]. apply Qcmul_le_compat_l; [qlra|].
  assert (R : (x - lo_of c f) / (hi_of c f - lo_of c f) <= 1). { apply Qcdiv_le_iff; qlra. }
  assert (R0 : 0 <= (x - lo_of c f) / (hi_of c f - lo_of c f)). { apply Qcle_div_iff; qlra. }
  apply Qcle_trans with (qn n * 1); [apply Qcmul_le_compat_l; [qlra|exact R]|]. rewrite Qcmult_1_r. now apply qn_le.
Qed.
