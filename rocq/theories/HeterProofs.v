(** HeterProofs: the heterogeneity functions of the regional classes. *)
From Verif Require Import Base Numpy Spec NumpyFacts Utils UtilsProofs LocalProofs ParamsProofs Helpers HelpersProofs Binning BinProofs LimitsProofs GlobalALE ALEState ALEFit ALEHist ALECurves ALEProps GlobalPDP PDPProofs PDPFacts GlobalShap
  PartSpec Partition Regional RegProofs RegNodes RegPlotProofs.
Open Scope Qc_scope.
Open Scope list_scope.

(** The argument nof_instances keeps all of [n] instances. *)
Definition keeps_all (nof : pyval) (n : nat) : Prop := nof = PyStr "all" \/ exists z, nof = PyInt z /\ (Z.of_nat n <= z)%Z.
Lemma prep_all choice nof n : keeps_all nof n -> exists z, prep_nof_instances choice nof n = Ok (z, seq 0 n).
Proof.
  intros [-> | (z & -> & H)]; simpl; [eauto|]. destruct (Z.ltb_spec z (Z.of_nat n)); [lia|]. eauto.
Qed.
Lemma pconstruct_given choice k X model nof mins maxs : keeps_all nof (length (rows X)) ->
  pconstruct choice k X model nof (Some (mins, maxs)) = Ok (mkPC k model mins maxs, pfresh X).
Proof.
  intros H. unfold pconstruct. destruct (prep_all choice nof _ H) as [z ->]. cbn [bind]. rewrite select_rows_all. cbn [bind]. unfold pfresh. now destruct X.
Qed.
Lemma mean_or_nan_some l : l <> [] -> mean_or_nan (map Some l) = Ok (mean l).
Proof.
  intros H. unfold mean_or_nan. destruct l as [|a l]; [congruence|]. change (map Some (a :: l)) with (Some a :: map Some l) at 1. cbv iota.
  assert (G : forall k : list Qc, mapM (fun o : NQ => match o with Some v => Ok v | None => @Raise Qc NonFinite end) (map Some k) = Ok k) by (induction k as [|b k IH]; [reflexivity|]; simpl; now rewrite IH).
  now rewrite G.
Qed.

Section Heter.
Context (x : externals) (c : rconfig) (f : nat).
Lemma too_small o h Z E : heter_of x c f o = Ok h -> (length Z < fo_minpts o)%nat -> h Z E = Ok BIG_M.
Proof.
  intros H L. apply Nat.ltb_lt in L. unfold heter_of in H. destruct (q_kind c); repeat (let a := fresh in let b := fresh in apply bind_ok in H as (a & b & H)); injection H as <-;
    unfold heter_ale, heter_pdp, heter_shap; now rewrite L.
Qed.
(** ** PDP and d-PDP *)
Lemma pdp_value k g G mp cv nof pts vec Z E ce :
  let D := dim (q_data c) in
  row_object (mkPC k (q_model c) (q_mins c) (q_maxs c)) D g G ->
  (forall r, In r Z -> length r = D) -> length (q_mins c) = D -> length (q_maxs c) = D -> (f < D)%nat -> (q_mins c)@f < (q_maxs c)@f ->
  (forall r, In r Z -> (q_mins c)@f <= r@f <= (q_maxs c)@f) -> Z <> [] -> keeps_all nof (length Z) ->
  prep_cent cv = Ok ce -> (ce = ZeroIntegral -> exists n, pts_of pts = Ok n /\ (1 <= n)%nat) -> (mp <= length Z)%nat ->
  exists lo hi, extrema Z f lo hi /\
    heter_pdp x c k f mp cv nof pts vec Z E =
      Ok (mean (map (fun t => x_rt x (variance (map (fun r => pvalue k (dt (q_data c)) g G f r t) Z))) (linspace lo hi 10))).
Proof.
  intros D RO WZ L1 L2 Hf LH IN NE KA PC PT HM. unfold heter_pdp. destruct (Nat.ltb_spec (length Z) mp); [lia|].
  set (X := as_data c Z). rewrite (pconstruct_given _ k X) by exact KA. cbn [bind]. set (gc := mkPC k (q_model c) (q_mins c) (q_maxs c)) in *.
  assert (W : wf_data X) by exact WZ.
  assert (LIM : limits_ok gc (dim X)) by (split; assumption).
  assert (ROX : row_object gc (dim X) g G) by exact RO.
  assert (WA : within gc [f] X = X).
  { unfold within. unfold X, as_data. simpl. f_equal. apply filter_all. intros r Hr. simpl. destruct (IN r Hr). rewrite andb_true_r. unfold in_limits. apply andb_true_iff. split; now apply Qcleb_le. }
  assert (PF : exists nrm, pfit_feature gc X f ce pts vec = (X, Ok nrm)).
  { unfold pfit_feature. rewrite (proj2 (Nat.ltb_lt _ _) Hf : Nat.ltb f (dim X) = true). unfold gc at 1 2. cbn [p_mins p_maxs]. rewrite !(getn_ok _ f 0) by lia. cbn [bind].
    assert (DW : drop_points_outside X (q_mins c)@f (q_maxs c)@f f = X).
    { pose proof (drop_within gc [] X f) as DW. rewrite within_nil in DW. unfold gc in DW at 1 2. cbn [p_mins p_maxs] in DW. rewrite DW. exact WA. }
    rewrite DW. destruct ce.
    - eexists. reflexivity.
    - rewrite (predict_eq gc g G vec X [(q_mins c)@f] f ROX W Hf) by (right; discriminate). eexists. reflexivity.
    - destruct (PT eq_refl) as (n & -> & Hn). cbn [bind].
      assert (NL : linspace (q_mins c)@f (q_maxs c)@f n <> []). { intros E0. apply (f_equal (@length _)) in E0. rewrite linspace_length in E0. simpl in E0. lia. }
      rewrite (predict_eq gc g G vec X _ f ROX W Hf) by now right. cbn [bind].
      rewrite (col_means_eq (pvalue (p_kind gc) (dt X) g G f) (rows X) _ NL). eexists. reflexivity. }
  destruct PF as (nrm & PF). unfold pfit. rewrite PC. cbn [pfit_loop]. unfold pfit_one. cbn [ps_data pfresh]. rewrite PF. unfold caught at 1.
  destruct (axis_limits_ok X NE) as (mins & maxs & EA & LA & LB & EX). rewrite EA. cbn [bind].
  assert (Hf' : (f < dim X)%nat) by exact Hf.
  rewrite !(getn_ok _ f 0) by lia. cbn [bind]. exists (mins@f), (maxs@f). split; [exact (EX f Hf)|].
  set (st1 := mkPS X _ _ _).
  unfold peval. change (prep_cent (PyBool false)) with (Ok NoCent). cbv iota. unfold prefit. rewrite (proj2 (Nat.ltb_lt _ _) Hf : Nat.ltb f (dim (ps_data st1)) = true).
  unfold st1 at 1. cbn [ps_fitted]. rewrite upd_same. simpl negb. cbn iota. cbn [snd].
  assert (NL : linspace mins@f maxs@f 10 <> []). { intros E0. apply (f_equal (@length _)) in E0. rewrite linspace_length in E0. simpl in E0. lia. }
  rewrite (peval_fitted_eq gc g G X ROX W LIM (x_rt x) st1 [f] f (linspace mins@f maxs@f 10) true NoCent false vec (fun _ => 0)).
  - unfold caught. rewrite WA, centered_zero. unfold summary, ice_matrix. rewrite (row_stds_some (x_rt x) (fun t r => pvalue (p_kind gc) (dt X) g G f r t)) by exact NE.
    rewrite <- (map_map (fun t => x_rt x (variance (map (fun r => pvalue (p_kind gc) (dt X) g G f r t) (rows X)))) Some). rewrite mean_or_nan_some; [reflexivity|].
    intros E0. apply map_eq_nil in E0. contradiction.
  - now rewrite WA.
  - exact Hf.
  - exact LH.
  - now right.
  - reflexivity.
  - congruence.
Qed.

(** ** ALE and RHALE *)
Lemma ale_value k m mp cv Z E v : heter_ale x c k f m mp cv Z E = Ok v -> (mp <= length Z)%nat ->
  exists gc e0, construct (x_choice x) k (as_data c Z) (q_model c) (PyStr "all") None E = Ok (gc, fresh e0) /\
  ((exists e, snd (fit gc (fresh e0) [f] m cv) = Raise e /\ v = BIG_M) \/
   (exists st1 hi y st2, fit gc (fresh e0) [f] m cv = (st1, Ok tt) /\ (exists r, In r Z /\ r@f = hi) /\ (forall r, In r Z -> r@f <= hi) /\
      eval gc (x_rt x) st1 f [hi] true (PyBool false) = (st2, Ok (y, Some [v])))).
Proof.
  intros H L. unfold heter_ale in H. destruct (Nat.ltb_spec (length Z) mp); [lia|]. apply bind_ok in H as ([gc s] & HC & H).
  destruct (construct_fresh _ _ _ _ _ _ _ _ _ HC) as [e0 ->]. exists gc, e0. split; [exact HC|].
  destruct (fit gc (fresh e0) [f] m cv) as [st1 [[]|e]] eqn:F.
  - right. unfold caught in H. apply bind_ok in H as ([mins maxs] & HA & H). apply bind_ok in H as (hi & Hh & H). apply (getn_inv _ _ _ 0) in Hh as [Lm <-].
    apply bind_ok in H as ([y z] & HE & H). destruct z as [[|w [|]]|]; try discriminate. injection H as ->.
    destruct (eval gc (x_rt x) st1 f [maxs@f] true (PyBool false)) as [st2 r] eqn:EV. simpl in HE. subst r. exists st1, (maxs@f), y, st2. split; [reflexivity|].
    assert (NE : rows (as_data c Z) <> []). { intros E0. unfold axis_limits_from_data in HA. rewrite E0 in HA. apply bind_ok in HA as (a & HA & HB). destruct (dim (as_data c Z)) as [|d]; [|discriminate]. simpl in HA. injection HA as <-. apply bind_ok in HB as (b & HB & HB2). simpl in HB. injection HB as <-. injection HB2 as _ <-. simpl in Lm. lia. }
    destruct (axis_limits_ok (as_data c Z) NE) as (m1 & m2 & EA & _ & L2 & EX). rewrite HA in EA. injection EA as <- <-. assert (Hf : (f < dim (as_data c Z))%nat) by lia.
    destruct (EX f Hf) as (B & _ & (r & Hr & Er)). split; [now exists r|]. split; [intros q Hq; now apply B|]. exact EV.
  - left. exists e. split; [reflexivity|]. unfold caught in H. destruct e; try discriminate; now injection H as <-.
Qed.
Lemma fit_run gc rt e0 m cv : fst (fit gc (fresh e0) [f] m cv) = run gc rt (fresh e0) [CallFit [f] m cv].
Proof. reflexivity. Qed.
(** The accumulated standard deviation is not negative. *)
Lemma ale_nonneg k m mp cv Z E v : (forall q, 0 <= q -> 0 <= x_rt x q) -> (forall n p d, m = MFixed n p d -> (1 <= n)%nat) -> heter_ale x c k f m mp cv Z E = Ok v -> 0 <= v.
Proof.
  intros R BM H. assert (B : 0 <= BIG_M) by (vm_compute; discriminate).
  destruct (Nat.lt_ge_cases (length Z) mp) as [L|L].
  { unfold heter_ale in H. apply Nat.ltb_lt in L. rewrite L in H. now injection H as <-. }
  destruct (ale_value k m mp cv Z E v H L) as (gc & e0 & _ & [(e & _ & ->) | (st1 & hi & y & st2 & F & _ & _ & EV)]); [exact B|].
  pose proof (fit_run gc (x_rt x) e0 m cv) as FR. rewrite F in FR. cbn [fst] in FR. rewrite FR in EV.
  assert (MO : Forall (methods_ok bins_pos) [CallFit [f] m cv]).
  { constructor; [|constructor]. destruct m; simpl; auto. eapply BM. reflexivity. }
  destruct (eval_after_history gc e0 bins_pos (fun f p => lo_of gc f < hi_of gc f -> exists m, bins_pos m /\ ALEHist.pfit gc e0 f m = Ok p) (x_rt x) _ f [hi] true (PyBool false) st2 y (Some [v])
    (default_bins_pos gc) (fun f0 m0 p0 Hm0 Hp0 _ => ex_intro _ m0 (conj Hm0 Hp0)) MO EV) as (ce & p & nc & g & _ & FE & HP & LH & _ & _ & _ & HH & _).
  destruct (HP LH) as (m' & BP & PF). destruct (pfit_usable gc e0 f m' p BP PF LH) as (es & l & U & P).
  destruct (HH eq_refl) as (gh & Hgh & Eh). injection Eh as ->.
  pose proof (usable_heter (x_rt x) _ _ _ _ [hi] U P) as UH. rewrite Hgh in UH. simpl in UH. injection UH as ->.
  destruct (heter_shape (x_rt x) _ _ _ _ R U P) as (A & _). apply A.
Qed.
End Heter.
