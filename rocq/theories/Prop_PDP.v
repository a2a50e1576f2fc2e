(** Properties C25-C32 and C54-C57: partial dependence (global_effect_pdp.py).
    [c] is a PDP/DerPDP object (class, model, axis limits), [X] the data it was constructed with, [ks] an arbitrary history
    of fit/eval calls, [prun c rt (pfresh X) ks] the state it leaves, [rt] np.sqrt. [peval .. het cv all vec] is
    eval(feature, xs, heterogeneity=het, centering=cv, return_all=all, use_vectorized=vec). Row-wise models are [map g]. *)
From Verif Require Import Base Numpy Spec NumpyFacts Utils UtilsProofs LocalProofs ParamsProofs Helpers HelpersProofs GlobalALE ALEState GlobalPDP PDPProofs PDPFacts.
Open Scope Qc_scope.
Open Scope list_scope.

(** Display of results through reduced fractions (for the examples only). *)
Definition showp (o : pout) : list (list (option Q)) :=
  match o with OMean y => [shown y] | OMeanStd y h => [shown y; shown h] | OAll M => map (fun r => map (fun q => Some (this q)) r) M end.

(** * C25  Vectorised and loop PDP agree and equal the ICE definition *)
(** The ICE matrix: row t, column i is the prediction for instance i with feature s set to x_t. *)
Definition ice (g : list Qc -> Qc) (Z : Mat) (s : nat) (xs : list Qc) : Mat :=
  map (fun x => map (fun r => g (with_feature r s x)) Z) xs.
(** Column s of the Jacobian there, and the central difference quotient with step 1e-6. *)
Definition d_ice_jac (G : list Qc -> list Qc) (Z : Mat) (s : nat) (xs : list Qc) : Mat :=
  map (fun x => map (fun r => (G (with_feature r s x))@s) Z) xs.
Definition d_ice_num (g : list Qc -> Qc) (Z : Mat) (s : nat) (xs : list Qc) : Mat :=
  map (fun x => map (fun r => (g (with_feature r s (x + Q2Qc (1 # 1000000))) - g (with_feature r s (x - Q2Qc (1 # 1000000)))) / Q2Qc (1 # 500000)) Z) xs.

Theorem C25_ice : forall g X xs s, dt X = Float64 -> wf_data X -> (s < dim X)%nat -> xs <> [] ->
  pdp_1d_vectorized (CPred (map g)) X xs s false = Ok (ice g (rows X) s xs) /\
  pdp_1d_non_vectorized (CPred (map g)) X xs s false = Ok (ice g (rows X) s xs).
Proof.
  intros g X xs s DT W S NE. rewrite (vec_eq _ X xs s g), (nonvec_eq _ X xs s g); auto using row_callee_pred. rewrite DT. split; reflexivity.
Qed.
Print Assumptions C25_ice.
Theorem C25_jacobian : forall G X xs s, dt X = Float64 -> wf_data X -> (s < dim X)%nat -> xs <> [] ->
  (forall r, length r = dim X -> length (G r) = dim X) ->
  pdp_1d_vectorized (CJac (map G)) X xs s false = Ok (d_ice_jac G (rows X) s xs) /\
  pdp_1d_non_vectorized (CJac (map G)) X xs s false = Ok (d_ice_jac G (rows X) s xs).
Proof.
  intros G X xs s DT W S NE HG. rewrite (vec_eq _ X xs s (fun r => nth s (G r) 0)), (nonvec_eq _ X xs s (fun r => nth s (G r) 0)); auto using row_callee_jac.
  rewrite DT. split; reflexivity.
Qed.
Print Assumptions C25_jacobian.
Lemma step2 : Q2Qc 2 * STEP = Q2Qc (1 # 500000). Proof. apply Qc_is_canon. reflexivity. Qed.
Theorem C25_central_difference : forall g X xs s, dt X = Float64 -> wf_data X -> (s < dim X)%nat -> xs <> [] ->
  pdp_1d_vectorized (CPred (map g)) X xs s true = Ok (d_ice_num g (rows X) s xs) /\
  pdp_1d_non_vectorized (CPred (map g)) X xs s true = Ok (d_ice_num g (rows X) s xs).
Proof.
  intros g X xs s DT W S NE. rewrite (vec_der_eq g X xs s W S), (nonvec_der_eq g X xs s NE W S), DT, step2. split; reflexivity.
Qed.
Print Assumptions C25_central_difference.
(** The two implementations agree for integer data as well (same cast), and whatever the object. *)
Theorem C25_agree : forall c X xs s g G, row_object c (dim X) g G -> wf_data X -> (s < dim X)%nat -> xs <> [] ->
  predict c true X xs s = predict c false X xs s.
Proof. intros c X xs s g G RO W S NE. rewrite (predict_eq c g G true), (predict_eq c g G false); auto. Qed.
Print Assumptions C25_agree.
(** What the module-level functions return: the means of the ICE values and, with heterogeneity=True, also their
    standard deviations and the standard deviations over sqrt(N). *)
Lemma returned_some rt N het (Z : Mat) (v : list Qc -> Qc -> Qc) xs : Z <> [] ->
  returned rt N het (map (fun x => map (fun r => v r x) Z) xs) =
  (map (fun x => Some (mean (map (fun r => v r x) Z))) xs,
   if het then Some (map (fun x => Some (rt (variance (map (fun r => v r x) Z)))) xs,
                     map (fun x => Some (rt (variance (map (fun r => v r x) Z)) / rt (qn N))) xs) else None).
Proof.
  intros NE. unfold returned, row_stderrs. rewrite (row_stds_some rt (fun x r => v r x) Z xs NE), (row_means_some (fun x r => v r x) Z xs NE).
  rewrite map_map. destruct het; reflexivity.
Qed.
Theorem C25_returned : forall vec rt g X xs s het, dt X = Float64 -> wf_data X -> (s < dim X)%nat -> xs <> [] -> rows X <> [] ->
  let curve x := map (fun r => g (with_feature r s x)) (rows X) in
  pdp_1d vec rt (CPred (map g)) X xs s false het =
    Ok (map (fun x => Some (mean (curve x))) xs,
        if het then Some (map (fun x => Some (rt (variance (curve x)))) xs,
                          map (fun x => Some (rt (variance (curve x)) / rt (qn (length (rows X))))) xs) else None).
Proof.
  intros vec rt g X xs s het DT W S NE NR curve. unfold pdp_1d. destruct (C25_ice g X xs s DT W S NE) as (A & B).
  destruct vec; [rewrite A|rewrite B]; cbn [rmap bind]; unfold ice; rewrite (returned_some rt _ het (rows X) (fun r x => g (with_feature r s x)) xs NR); reflexivity.
Qed.
Print Assumptions C25_returned.
Example C25_instance :
  let X := mkData Float64 2 [qs [1; 10]; qs [2; 20]] in
  wf_data X /\ rmap (map show) (pdp_1d_vectorized (CPred (map (fun r => r@0 * r@1))) X (qs [3; 4; 5]) 0 false) = Ok [[30; 60]; [40; 80]; [50; 100]]%Q.
Proof. split; [intros r [<-|[<-|[]]]; reflexivity|vm_compute; reflexivity]. Qed.

Example C25_returned_instance :
  rmap (fun p => (shown (fst p), option_map (fun q => (shown (fst q), shown (snd q))) (snd p)))
    (pdp_1d false (fun v => v) (CPred (map (fun r => r@0 * r@1))) (mkData Float64 2 [qs [1; 10]; qs [2; 20]]) (qs [3; 4]) 0 false true)
  = Ok ([Some 45; Some 60]%Q, Some ([Some 225; Some 400]%Q, [Some (225 # 2); Some 200]%Q)).
Proof. vm_compute. reflexivity. Qed.

(** * C26  eval returns mean and standard deviation of the ICE curves *)
(** Any history, all the instances inside the axis limits (in particular for the default limits, C29_default_limits). *)
Theorem C26_eval : forall c g X rt ks s xs vec, p_kind c = KPDP -> p_model c = map g -> dt X = Float64 -> wf_data X -> limits_ok c (dim X) ->
  (forall f r, (f < dim X)%nat -> In r (rows X) -> (p_mins c)@f <= r@f <= (p_maxs c)@f) -> rows X <> [] ->
  (s < dim X)%nat -> (p_mins c)@s < (p_maxs c)@s -> vec = true \/ xs <> [] ->
  let st := prun c rt (pfresh X) ks in
  let curve x := map (fun r => g (with_feature r s x)) (rows X) in
  snd (peval c rt st s xs false (PyBool false) false vec) = Ok (OMean (map (fun x => Some (mean (curve x))) xs)) /\
  snd (peval c rt st s xs true (PyBool false) false vec) =
    Ok (OMeanStd (map (fun x => Some (mean (curve x))) xs) (map (fun x => Some (rt (variance (curve x)))) xs)) /\
  (forall het, snd (peval c rt st s xs het (PyBool false) true vec) = Ok (OAll (map curve xs))).
Proof.
  intros c g X rt ks s xs vec K Hm DT W LIM INL NE S LH V st curve.
  assert (RO : row_object c (dim X) g (fun r => r)) by (split; [exact Hm|rewrite K; exact I]).
  assert (P : forall het al, snd (peval c rt st s xs het (PyBool false) al vec) = Ok (summary rt al het (map curve xs))).
  { intros het al. destruct (peval_history c g (fun r => r) X RO W LIM INL rt ks s (PyBool false) NoCent eq_refl S LH) as (n & _ & _ & E).
    unfold st. rewrite (E xs het al vec V). unfold shift_at, shift. rewrite centered_zero. unfold ice_matrix. rewrite K, DT. reflexivity. }
  split; [|split].
  - rewrite P. unfold summary, curve. now rewrite row_means_some.
  - rewrite P. unfold summary, curve. now rewrite row_means_some, row_stds_some.
  - intros het. now rewrite P.
Qed.
Print Assumptions C26_eval.
(** With narrower limits, the instances are those inside the limits of [s] and of some of the features touched before. *)
Theorem C26_eval_any_limits : forall c g X rt ks s xs het all vec, p_kind c = KPDP -> p_model c = map g -> dt X = Float64 -> wf_data X ->
  limits_ok c (dim X) -> (s < dim X)%nat -> (p_mins c)@s < (p_maxs c)@s -> vec = true \/ xs <> [] ->
  exists T, In s T /\ (forall f, In f T -> f = s \/ touched ks f) /\
    let Z := filter (fun r => forallb (fun f => ((p_mins c)@f <=? r@f) && (r@f <=? (p_maxs c)@f)) T) (rows X) in
    snd (peval c rt (prun c rt (pfresh X) ks) s xs het (PyBool false) all vec) = Ok (summary rt all het (ice g Z s xs)).
Proof.
  intros c g X rt ks s xs het all vec K Hm DT W LIM S LH V.
  assert (RO : row_object c (dim X) g (fun r => r)) by (split; [exact Hm|rewrite K; exact I]).
  destruct (peval_uncentered c g (fun r => r) X RO W LIM rt ks s xs het all vec S LH V) as (T & HS & HT & E).
  exists T. split; [exact HS|]. split; [exact HT|]. simpl. rewrite E, K, DT. reflexivity.
Qed.
Print Assumptions C26_eval_any_limits.
Definition ex26 := mkPC KPDP (map (fun r => r@0 * r@1)) (qs [0; 0]) (qs [4; 30]).
Definition ex26X := mkData Float64 2 [qs [1; 10]; qs [2; 20]].
Example C26_instance : limits_ok ex26 2 /\ (forall f r, (f < 2)%nat -> In r (rows ex26X) -> (p_mins ex26)@f <= r@f <= (p_maxs ex26)@f) /\
  rmap showp (snd (peval ex26 (fun v => v) (prun ex26 (fun v => v) (pfresh ex26X) [PEval 1 (qs [5]) false (PyBool true) false true]) 0 (qs [3; 4]) true (PyBool false) false true))
  = Ok [[Some 45; Some 60]; [Some 225; Some 400]]%Q.
Proof.
  split; [split; reflexivity|]. split; [|vm_compute; reflexivity].
  intros f r Hf Hr. destruct f as [|[|f]]; [| |lia]; destruct Hr as [<-|[<-|[]]]; split; apply Qcleb_le; reflexivity.
Qed.

(** * C27  Centering *)
(** The curve of instance [r] minus its value at the left limit, or minus its mean over [n] equally spaced points. *)
Definition start_centered (g : list Qc -> Qc) (Z : Mat) (s : nat) (lo : Qc) (xs : list Qc) : Mat :=
  map (fun x => map (fun r => g (with_feature r s x) - g (with_feature r s lo)) Z) xs.
Definition mean_centered (g : list Qc -> Qc) (Z : Mat) (s : nat) (grid xs : list Qc) : Mat :=
  map (fun x => map (fun r => g (with_feature r s x) - mean (map (fun y => g (with_feature r s y)) grid)) Z) xs.

Section C27.
Variables (c : pconfig) (g : list Qc -> Qc) (X : data) (rt : Qc -> Qc).
Hypotheses (K : p_kind c = KPDP) (Hm : p_model c = map g) (DT : dt X = Float64) (W : wf_data X) (LIM : limits_ok c (dim X)).
Lemma ro27 : row_object c (dim X) g (fun r => r). Proof. split; [exact Hm|rewrite K; exact I]. Qed.
Lemma fresh27 s xs het cv ce all vec : prep_cent cv = Ok ce -> (s < dim X)%nat -> (p_mins c)@s < (p_maxs c)@s -> vec = true \/ xs <> [] ->
  snd (peval c rt (pfresh X) s xs het cv all vec) =
  Ok (summary rt all het (centered (fun r x => g (with_feature r s x)) (shift (fun r x => g (with_feature r s x)) (p_mins c)@s (p_maxs c)@s 100 ce) (rows (within c [s] X)) xs)).
Proof. intros PC S LH V. rewrite (peval_fresh c g (fun r => r) X ro27 W LIM rt s xs het cv ce all vec PC S LH V). unfold shift_at. rewrite K, DT. reflexivity. Qed.
Hypothesis INL : forall f r, (f < dim X)%nat -> In r (rows X) -> (p_mins c)@f <= r@f <= (p_maxs c)@f.
Lemma hist27 ks s cv ce : prep_cent cv = Ok ce -> (s < dim X)%nat -> (p_mins c)@s < (p_maxs c)@s ->
  exists n, (ce = ZeroIntegral -> asked_points ks s n) /\ (1 <= n)%nat /\ forall xs het all vec, vec = true \/ xs <> [] ->
  snd (peval c rt (prun c rt (pfresh X) ks) s xs het cv all vec) =
  Ok (summary rt all het (centered (fun r x => g (with_feature r s x)) (shift (fun r x => g (with_feature r s x)) (p_mins c)@s (p_maxs c)@s n ce) (rows X) xs)).
Proof.
  intros PC S LH. destruct (peval_history c g (fun r => r) X ro27 W LIM INL rt ks s cv ce PC S LH) as (n & HA & H1 & E).
  exists n. split; [exact HA|]. split; [exact H1|]. intros xs het all vec V. rewrite (E xs het all vec V). unfold shift_at. rewrite K, DT. reflexivity.
Qed.
End C27.

(** zero_start, any history. *)
Theorem C27_zero_start_partial : forall c g X rt ks s xs het all vec, p_kind c = KPDP -> p_model c = map g -> dt X = Float64 -> wf_data X -> limits_ok c (dim X) ->
  (forall f r, (f < dim X)%nat -> In r (rows X) -> (p_mins c)@f <= r@f <= (p_maxs c)@f) ->
  (s < dim X)%nat -> (p_mins c)@s < (p_maxs c)@s -> vec = true \/ xs <> [] ->
  snd (peval c rt (prun c rt (pfresh X) ks) s xs het (PyStr "zero_start") all vec) =
    Ok (summary rt all het (start_centered g (rows X) s (p_mins c)@s xs)) /\
  (forall t i, (t < length xs)%nat -> xs@t = (p_mins c)@s -> (i < length (rows X))%nat ->
     nth i (nth t (start_centered g (rows X) s (p_mins c)@s xs) []) 0 = 0).
Proof.
  intros c g X rt ks s xs het all vec K Hm DT W LIM INL S LH V. split.
  - destruct (hist27 c g X rt K Hm DT W LIM INL ks s (PyStr "zero_start") ZeroStart eq_refl S LH) as (n & _ & _ & E). rewrite (E xs het all vec V). reflexivity.
  - intros t i Ht Hx Hi. unfold start_centered. rewrite nth_map_in with (d := 0) by exact Ht. rewrite nth_map_in with (d := []) by exact Hi. rewrite Hx. ring.
Qed.
Print Assumptions C27_zero_start_partial.
(** zero_integral, any history: the mean over the grid of [n] points, 100 by default or the number asked for in a fit of this feature,
    is subtracted, so that every curve has zero mean over that grid. *)
Theorem C27_zero_integral_partial : forall c g X rt ks s cv, p_kind c = KPDP -> p_model c = map g -> dt X = Float64 -> wf_data X -> limits_ok c (dim X) ->
  (forall f r, (f < dim X)%nat -> In r (rows X) -> (p_mins c)@f <= r@f <= (p_maxs c)@f) ->
  (s < dim X)%nat -> (p_mins c)@s < (p_maxs c)@s -> cv = PyBool true \/ cv = PyStr "zero_integral" ->
  exists n, (1 <= n)%nat /\ (n = 100%nat \/ exists fs cv' pts vec', In (PFit fs cv' pts vec') ks /\ In s fs /\ pts_of pts = Ok n) /\
  let grid := linspace (p_mins c)@s (p_maxs c)@s n in
  (forall xs het all vec, vec = true \/ xs <> [] ->
    snd (peval c rt (prun c rt (pfresh X) ks) s xs het cv all vec) = Ok (summary rt all het (mean_centered g (rows X) s grid xs))) /\
  forall i, (i < length (rows X))%nat -> mean (map (fun row => nth i row 0) (mean_centered g (rows X) s grid grid)) = 0.
Proof.
  intros c g X rt ks s cv K Hm DT W LIM INL S LH Hcv.
  assert (PC : prep_cent cv = Ok ZeroIntegral) by (destruct Hcv as [->| ->]; reflexivity).
  destruct (hist27 c g X rt K Hm DT W LIM INL ks s cv ZeroIntegral PC S LH) as (n & HA & H1 & E).
  exists n. split; [exact H1|]. split; [exact (HA eq_refl)|]. simpl. split; [intros xs het all vec V; rewrite (E xs het all vec V); reflexivity|].
  intros i Hi. unfold mean_centered. rewrite map_map.
  rewrite (map_ext _ (fun x => g (with_feature (nth i (rows X) []) s x) - mean (map (fun y => g (with_feature (nth i (rows X) []) s y)) (linspace (p_mins c)@s (p_maxs c)@s n)))).
  2:{ intros x. now rewrite nth_map_in with (d := []). }
  rewrite mean_sub_const; [ring|]. intros E0. apply (f_equal (@length _)) in E0. rewrite linspace_length in E0. simpl in E0. lia.
Qed.
Print Assumptions C27_zero_integral_partial.
(** On a fresh object the limits may be arbitrary: the instances inside them are used. *)
Theorem C27_fresh : forall c g X rt s xs het all vec, p_kind c = KPDP -> p_model c = map g -> dt X = Float64 -> wf_data X -> limits_ok c (dim X) ->
  (s < dim X)%nat -> (p_mins c)@s < (p_maxs c)@s -> vec = true \/ xs <> [] ->
  let Z := filter (fun r => ((p_mins c)@s <=? r@s) && (r@s <=? (p_maxs c)@s)) (rows X) in
  snd (peval c rt (pfresh X) s xs het (PyStr "zero_start") all vec) = Ok (summary rt all het (start_centered g Z s (p_mins c)@s xs)) /\
  snd (peval c rt (pfresh X) s xs het (PyBool true) all vec) = Ok (summary rt all het (mean_centered g Z s (linspace (p_mins c)@s (p_maxs c)@s 100) xs)).
Proof.
  intros c g X rt s xs het all vec K Hm DT W LIM S LH V Z.
  assert (EZ : rows (within c [s] X) = Z). { unfold within, Z. cbn [rows]. apply filter_ext. intros r. cbn [forallb]. apply andb_true_r. }
  split.
  - rewrite (fresh27 c g X rt K Hm DT W LIM s xs het (PyStr "zero_start") ZeroStart all vec eq_refl S LH V), EZ. reflexivity.
  - rewrite (fresh27 c g X rt K Hm DT W LIM s xs het (PyBool true) ZeroIntegral all vec eq_refl S LH V), EZ. reflexivity.
Qed.
Print Assumptions C27_fresh.
(** Refuted for narrower limits: after fitting feature 0, a call on feature 1 shrinks the data to one instance; the "ICE curves" of
    feature 0 are then that one curve minus the constants of the two original instances, and the second one is -3, not 0, at the start. *)
Definition ex27 := mkPC KPDP (map (fun r => r@0 * r@1 + r@1)) (qs [0; 0]) (qs [4; 3]).
Definition ex27X := mkData Float64 2 [qs [1; 2]; qs [2; 5]].
Theorem C27_refuted : exists row,
  let st := prun ex27 (fun v => v) (pfresh ex27X) [PFit [0%nat] (PyStr "zero_start") (PyInt 100) true; PEval 1 (qs [1]) false (PyBool false) false true] in
  snd (peval ex27 (fun v => v) st 0 [(p_mins ex27)@0] false (PyStr "zero_start") true true) = Ok (OAll [row]) /\
  length row = 2%nat /\ length (rows (ps_data st)) = 1%nat /\ row@1 = - Q2Qc 3.
Proof. eexists. split; [vm_compute; reflexivity|]. split; [reflexivity|]. split; [vm_compute; reflexivity|]. apply Qc_is_canon. vm_compute. reflexivity. Qed.
Print Assumptions C27_refuted.

(** * C28  Additive models *)
(** f(x) = a(x_s) + h(x) where h ignores feature s: the centered curves are a(x) - a(start) resp. a(x) - (grid mean of a),
    the same for every instance; the heterogeneity is sqrt 0. Any history. *)
Theorem C28_additive : forall c a h X rt ks s xs cv vec, p_kind c = KPDP -> p_model c = map (fun r => a r@s + h r) ->
  (forall r v, h (with_feature r s v) = h r) ->
  dt X = Float64 -> wf_data X -> limits_ok c (dim X) ->
  (forall f r, (f < dim X)%nat -> In r (rows X) -> (p_mins c)@f <= r@f <= (p_maxs c)@f) -> rows X <> [] ->
  (s < dim X)%nat -> (p_mins c)@s < (p_maxs c)@s -> vec = true \/ xs <> [] -> prep_centering cv <> Ok (PyBool false) -> prep_centering cv <> Raise AssertionError ->
  exists k, (cv = PyStr "zero_start" /\ k = a (p_mins c)@s \/
             cv <> PyStr "zero_start" /\ exists n, asked_points ks s n /\ (1 <= n)%nat /\ k = mean (map a (linspace (p_mins c)@s (p_maxs c)@s n))) /\
    snd (peval c rt (prun c rt (pfresh X) ks) s xs true cv false vec) = Ok (OMeanStd (map (fun x => Some (a x - k)) xs) (map (fun _ => Some (rt 0)) xs)) /\
    snd (peval c rt (prun c rt (pfresh X) ks) s xs true cv true vec) = Ok (OAll (map (fun x => repeat (a x - k) (length (rows X))) xs)).
Proof.
  intros c a h X rt ks s xs cv vec K Hm IGN DT W LIM INL NE S LH V C1 C2.
  set (g := fun r : list Qc => a r@s + h r) in *.
  assert (PC : exists ce, prep_cent cv = Ok ce /\ ce <> NoCent /\ (cv = PyStr "zero_start" <-> ce = ZeroStart)).
  { unfold prep_centering in C1, C2. destruct cv as [[|]|str| | |]; try congruence.
    - exists ZeroIntegral. split; [reflexivity|]. split; [discriminate|]. split; discriminate.
    - destruct (String.eqb_spec str "zero_start") as [->|N1].
      + exists ZeroStart. split; [reflexivity|]. split; [discriminate|]. split; reflexivity.
      + destruct (String.eqb_spec str "zero_integral") as [->|N2]; [|now simpl in C2].
        exists ZeroIntegral. split; [reflexivity|]. split; [discriminate|]. split; discriminate. }
  destruct PC as (ce & PC & NC & CS).
  destruct (hist27 c g X rt K Hm DT W LIM INL ks s cv ce PC S LH) as (n & HA & H1 & E).
  exists (additive_shift a (p_mins c)@s (p_maxs c)@s n ce). split.
  - destruct ce; [congruence| |].
    + left. split; [now apply CS|reflexivity].
    + right. split; [intros Q; apply CS in Q; discriminate|]. exists n. auto.
  - assert (HL : forall r, In r (rows X) -> (s < length r)%nat) by (intros r Hr; rewrite (W r Hr); exact S).
    rewrite !(E _ _ _ _ V). rewrite (additive_centered a h g s (p_mins c)@s (p_maxs c)@s n (fun r => eq_refl) IGN H1 (rows X) xs ce HL NC).
    unfold summary. split; f_equal.
    + rewrite (row_means_some (fun x _ => a x - additive_shift a (p_mins c)@s (p_maxs c)@s n ce)) by exact NE.
      rewrite (row_stds_some rt (fun x _ => a x - additive_shift a (p_mins c)@s (p_maxs c)@s n ce)) by exact NE.
      f_equal; apply map_ext; intros x; [now rewrite mean_map_const|now rewrite variance_map_const].
    + f_equal. apply map_ext. intros x. clear. induction (rows X) as [|r Z IH]; simpl; [reflexivity|]. now rewrite IH.
Qed.
Print Assumptions C28_additive.
(** On a fresh object with arbitrary limits. *)
Theorem C28_additive_fresh : forall c a h X rt s xs vec, p_kind c = KPDP -> p_model c = map (fun r => a r@s + h r) ->
  (forall r v, h (with_feature r s v) = h r) -> dt X = Float64 -> wf_data X -> limits_ok c (dim X) ->
  (s < dim X)%nat -> (p_mins c)@s < (p_maxs c)@s -> vec = true \/ xs <> [] ->
  (exists r, In r (rows X) /\ (p_mins c)@s <= r@s <= (p_maxs c)@s) ->
  snd (peval c rt (pfresh X) s xs true (PyStr "zero_start") false vec) =
    Ok (OMeanStd (map (fun x => Some (a x - a (p_mins c)@s)) xs) (map (fun _ => Some (rt 0)) xs)) /\
  snd (peval c rt (pfresh X) s xs true (PyBool true) false vec) =
    Ok (OMeanStd (map (fun x => Some (a x - mean (map a (linspace (p_mins c)@s (p_maxs c)@s 100)))) xs) (map (fun _ => Some (rt 0)) xs)).
Proof.
  intros c a h X rt s xs vec K Hm IGN DT W LIM S LH V (r0 & Hr0 & HB).
  set (g := fun r : list Qc => a r@s + h r) in *. set (Z := rows (within c [s] X)).
  assert (HL : forall r, In r Z -> (s < length r)%nat) by (intros r Hr; unfold Z in Hr; rewrite (within_wf c [s] X W r Hr); exact S).
  assert (NE : Z <> []).
  { assert (In r0 Z). { unfold Z, within. cbn [rows]. apply filter_In. split; [exact Hr0|]. cbn [forallb]. rewrite andb_true_r. unfold in_limits.
      apply andb_true_iff. split; apply Qcleb_le; apply HB. }
    intros E. rewrite E in H. destruct H. }
  assert (P : forall cv ce, prep_cent cv = Ok ce -> ce <> NoCent -> snd (peval c rt (pfresh X) s xs true cv false vec) =
     Ok (OMeanStd (map (fun x => Some (a x - additive_shift a (p_mins c)@s (p_maxs c)@s 100 ce)) xs) (map (fun _ => Some (rt 0)) xs))).
  { intros cv ce PC NC. rewrite (fresh27 c g X rt K Hm DT W LIM s xs true cv ce false vec PC S LH V). fold Z.
    rewrite (additive_centered a h g s (p_mins c)@s (p_maxs c)@s 100 (fun r => eq_refl) IGN ltac:(lia) Z xs ce HL NC). unfold summary. f_equal.
    rewrite (row_means_some (fun x _ => a x - additive_shift a (p_mins c)@s (p_maxs c)@s 100 ce)) by exact NE.
    rewrite (row_stds_some rt (fun x _ => a x - additive_shift a (p_mins c)@s (p_maxs c)@s 100 ce)) by exact NE.
    f_equal; apply map_ext; intros x; [now rewrite mean_map_const|now rewrite variance_map_const]. }
  split; [apply (P _ ZeroStart)|apply (P _ ZeroIntegral)]; (reflexivity || discriminate).
Qed.
Print Assumptions C28_additive_fresh.
(** x0^2 + 3 x1 : centered PDP of feature 0 is x^2 - lo^2. *)
Example C28_instance :
  let c := mkPC KPDP (map (fun r => r@0 * r@0 + Q2Qc 3 * r@1)) (qs [1; 0]) (qs [4; 30]) in
  (forall r v, Q2Qc 3 * (with_feature r 0 v)@1 = Q2Qc 3 * r@1) /\
  rmap showp (snd (peval c (fun v => v) (pfresh ex26X) 0 (qs [1; 2; 3]) true (PyStr "zero_start") false true)) = Ok [[Some 0; Some 3; Some 8]; [Some 0; Some 0; Some 0]]%Q.
Proof. split; [intros [|u [|w r]] v; reflexivity|vm_compute; reflexivity]. Qed.

(** * C29  Evaluations do not interfere across features *)
(** All the instances inside the axis limits; ANY model (not only row-wise ones); after any history [h], any calls [ks] that do not
    concern feature [s] leave every later eval of [s] unchanged. *)
Theorem C29_no_interference_partial : forall c X rt h ks s xs het cv all vec, limits_ok c (dim X) ->
  (forall f r, (f < dim X)%nat -> In r (rows X) -> (p_mins c)@f <= r@f <= (p_maxs c)@f) ->
  (forall k, In k ks -> match k with PFit fs _ _ _ => ~ In s fs | PEval f _ _ _ _ _ => f <> s end) ->
  snd (peval c rt (prun c rt (pfresh X) (h ++ ks)) s xs het cv all vec) = snd (peval c rt (prun c rt (pfresh X) h) s xs het cv all vec).
Proof.
  intros c X rt h ks s xs het cv all vec LIM INL NT. unfold prun. rewrite fold_left_app. fold (prun c rt (pfresh X) h). symmetry.
  apply (peval_local c X). apply (prun_other c X LIM INL); [now apply prun_data|].
  intros k Hk HT. specialize (NT k Hk). destruct k; simpl in *; auto.
Qed.
Print Assumptions C29_no_interference_partial.
(** Row-wise models: after any history of evals and of fits with the default number of points, eval gives what it gives on a fresh object. *)
Theorem C29_history_free_partial : forall c g G X rt ks s xs het cv all vec, row_object c (dim X) g G -> wf_data X -> limits_ok c (dim X) ->
  (forall f r, (f < dim X)%nat -> In r (rows X) -> (p_mins c)@f <= r@f <= (p_maxs c)@f) ->
  (forall fs cv' pts vec', In (PFit fs cv' pts vec') ks -> pts = PyInt 100) ->
  (s < dim X)%nat -> (p_mins c)@s < (p_maxs c)@s -> vec = true \/ xs <> [] ->
  snd (peval c rt (prun c rt (pfresh X) ks) s xs het cv all vec) = snd (peval c rt (pfresh X) s xs het cv all vec).
Proof.
  intros c g G X rt ks s xs het cv all vec RO W LIM INL HP S LH V. destruct (prep_cent cv) as [ce|e] eqn:PC.
  - destruct (peval_history c g G X RO W LIM INL rt ks s cv ce PC S LH) as (n & HA & _ & E). rewrite (E xs het all vec V).
    rewrite (peval_fresh c g G X RO W LIM rt s xs het cv ce all vec PC S LH V).
    rewrite (within_all c X [s] INL) by (intros k [<-|[]]; exact S).
    replace (shift_at c g G X s n ce) with (shift_at c g G X s 100 ce); [reflexivity|].
    destruct ce; [reflexivity|reflexivity|]. destruct (HA eq_refl) as [->|(fs & cv' & pts & vec' & HI & _ & Hn)]; [reflexivity|].
    rewrite (HP _ _ _ _ HI) in Hn. injection Hn as <-. reflexivity.
  - unfold peval. now rewrite PC.
Qed.
Print Assumptions C29_history_free_partial.
(** The hypotheses hold for every object constructed with the default axis limits. *)
Theorem C29_default_limits : forall choice k X model nof c st, (forall N n i, In i (choice N n) -> (i < N)%nat) -> wf_data X ->
  pconstruct choice k X model nof None = Ok (c, st) ->
  exists X', st = pfresh X' /\ p_kind c = k /\ p_model c = model /\ dt X' = dt X /\ dim X' = dim X /\ wf_data X' /\ limits_ok c (dim X') /\
    (forall f r, (f < dim X')%nat -> In r (rows X') -> (p_mins c)@f <= r@f <= (p_maxs c)@f).
Proof.
  intros choice k X model nof c st HC W H. unfold pconstruct in H.
  apply bind_ok in H as ((z & idx) & H1 & H). apply bind_ok in H as (rs & H2 & H). apply bind_ok in H as ((mins & maxs) & H3 & H).
  injection H as <- <-. exists (mkData (dt X) (dim X) rs). cbn [p_kind p_model p_mins p_maxs dt dim rows].
  assert (LM : length mins = dim X /\ length maxs = dim X).
  { unfold axis_limits_from_data in H3. apply bind_ok in H3 as (a & A1 & H3). apply bind_ok in H3 as (b & B1 & H3). injection H3 as -> ->.
    apply mapM_length in A1, B1. rewrite seq_length in A1, B1. auto. }
  assert (WR : wf_data (mkData (dt X) (dim X) rs)).
  { intros r Hr. simpl in Hr |- *. unfold select_rows, take in H2. clear - H2 Hr W.
    revert rs H2 Hr. induction idx as [|i idx IH]; intros rs H2 Hr; simpl in H2; [injection H2 as <-; destruct Hr|].
    apply bind_ok in H2 as (a & A1 & H2). apply bind_ok in H2 as (bs & B1 & H2). injection H2 as <-. destruct Hr as [<-|Hr].
    - apply getn_inv with (d := []) in A1 as (L & <-). apply W. now apply nth_In.
    - exact (IH bs B1 Hr). }
  split; [reflexivity|]. split; [reflexivity|]. split; [reflexivity|]. split; [reflexivity|]. split; [reflexivity|]. split; [exact WR|]. split; [exact LM|].
  intros f r Hf Hr. destruct (axis_limits_ok (mkData (dt X) (dim X) rs)) as (m1 & m2 & E & _ & _ & B).
  { simpl. intros E. rewrite E in Hr. destruct Hr. }
  rewrite H3 in E. injection E as <- <-. now apply B.
Qed.
Print Assumptions C29_default_limits.
(** Refuted for narrower limits: evaluating feature 1 first changes the PDP of feature 0 (from the mean of two instances to one). *)
Theorem C29_refuted : exists y1 y2,
  snd (peval ex27 (fun v => v) (pfresh ex27X) 0 (qs [1]) false (PyBool false) false true) = Ok (OMean [Some y1]) /\
  snd (peval ex27 (fun v => v) (prun ex27 (fun v => v) (pfresh ex27X) [PEval 1 (qs [1]) false (PyBool false) false true]) 0 (qs [1]) false (PyBool false) false true)
    = Ok (OMean [Some y2]) /\ y1 <> y2.
Proof. eexists. eexists. split; [vm_compute; reflexivity|]. split; [vm_compute; reflexivity|]. intros E. apply (f_equal this) in E. vm_compute in E. discriminate. Qed.
Print Assumptions C29_refuted.
(** It can even make a centered eval crash (constants of three instances, data of two). *)
Definition ex29X := mkData Float64 2 [qs [1; 2]; qs [2; 5]; qs [3; 1]].
Theorem C29_refuted_crash :
  let h := [PEval 0 (qs [1]) false (PyBool true) false true] in
  (exists y, snd (peval ex27 (fun v => v) (prun ex27 (fun v => v) (pfresh ex29X) h) 0 (qs [1]) false (PyBool true) false true) = Ok y) /\
  snd (peval ex27 (fun v => v) (prun ex27 (fun v => v) (pfresh ex29X) (h ++ [PEval 1 (qs [1]) false (PyBool false) false true])) 0 (qs [1]) false (PyBool true) false true)
    = Raise ValueError.
Proof. split; [eexists; vm_compute; reflexivity|vm_compute; reflexivity]. Qed.
Print Assumptions C29_refuted_crash.

(** * C30  Position seen by the model, for every dtype *)
(** The model is called on the data with feature s equal to the position cast to the dtype: the position itself for float data ... *)
Theorem C30_float : forall g X xs s x i, dt X = Float64 -> wf_data X -> (s < dim X)%nat -> (x < length xs)%nat -> (i < length (rows X))%nat ->
  exists M r, pdp_1d_vectorized (CPred (map g)) X xs s false = Ok M /\ nth i (nth x M []) 0 = g r /\
    length r = dim X /\ r@s = xs@x /\ forall k, k <> s -> r@k = (nth i (rows X) [])@k.
Proof.
  intros g X xs s x i DT W S Hx Hi. rewrite (vec_eq _ X xs s g (row_callee_pred g s (dim X)) W S). eexists. exists (with_feature (nth i (rows X) []) s xs@x).
  assert (HL : length (nth i (rows X) []) = dim X) by (apply W; now apply nth_In).
  split; [reflexivity|]. unfold ice_matrix. rewrite nth_map_in with (d := 0) by exact Hx. rewrite nth_map_in with (d := []) by exact Hi. rewrite DT.
  split; [reflexivity|]. unfold with_feature. rewrite list_set_length. split; [exact HL|].
  split; [apply list_set_nth_same; lia|]. intros k Hk. apply list_set_nth_other. auto.
Qed.
Print Assumptions C30_float.
(** ... and for integer data the position truncated towards zero (so integer positions are safe). *)
Theorem C30_integer_partial : forall g X xs s, dt X = Int64 -> wf_data X -> (s < dim X)%nat ->
  pdp_1d_vectorized (CPred (map g)) X xs s false = Ok (ice g (rows X) s (map qtrunc xs)) /\
  (forall z, qtrunc (qz z) = qz z) /\ (forall x, Qcabs (qtrunc x) <= Qcabs x).
Proof.
  intros g X xs s DT W S. split; [|split].
  - rewrite (vec_eq _ X xs s g (row_callee_pred g s (dim X)) W S). unfold ice, ice_matrix. rewrite DT, map_map. reflexivity.
  - intros z. unfold qtrunc. f_equal.
    replace (this (qz z)) with (z # 1). { simpl. apply Z.quot_1_r. }
    unfold qz, Q2Qc, this, inject_Z. unfold Qred. destruct (Z.ggcd z (Zpos 1)) as [gg [aa bb]] eqn:E.
    pose proof (Z.ggcd_gcd z 1) as G1. pose proof (Z.ggcd_correct_divisors z 1) as G2. rewrite E in G1, G2. simpl in G1, G2.
    destruct G2 as (A & B). rewrite Z.gcd_1_r in G1. subst gg. rewrite Z.mul_1_l in A, B. subst aa bb. reflexivity.
  - intros x. unfold qtrunc. set (q := this x).
    assert (E : this x = q) by reflexivity. destruct q as [n d]. simpl.
    unfold Qcabs.
    assert (QX : (this x == n # d)%Q) by (rewrite E; reflexivity).
    assert (TQ : (this (qz (Z.quot n (Zpos d))) == inject_Z (Z.quot n (Zpos d)))%Q) by apply this_qz.
    destruct (Z.le_gt_cases 0 n) as [Hn|Hn].
    + pose proof (Z.quot_pos n (Zpos d) Hn ltac:(lia)) as P. pose proof (Z.mul_quot_le n (Zpos d) Hn ltac:(lia)) as U.
      rewrite (proj2 (Qcleb_le _ _)). 2:{ unfold Qcle. rewrite TQ. change (this 0) with (inject_Z 0). rewrite <- Zle_Qle. exact P. }
      rewrite (proj2 (Qcleb_le _ _)). 2:{ unfold Qcle. rewrite QX. unfold Qle. simpl. lia. }
      unfold Qcle. rewrite TQ, QX. unfold Qle, inject_Z. simpl. lia.
    + assert (P : (Z.quot n (Zpos d) <= 0)%Z). { replace n with (- (- n))%Z by lia. rewrite Z.quot_opp_l by lia. pose proof (Z.quot_pos (- n) (Zpos d) ltac:(lia) ltac:(lia)). lia. }
      assert (U : (n <= Zpos d * Z.quot n (Zpos d))%Z). { pose proof (Z.mul_quot_ge n (Zpos d) ltac:(lia) ltac:(lia)). lia. }
      rewrite (proj2 (Qcleb_gt 0 x)). 2:{ unfold Qclt. rewrite QX. unfold Qlt. simpl. lia. }
      assert (HX : (this (- x) == - (n # d))%Q) by (rewrite this_opp, QX; reflexivity).
      destruct (0 <=? qz (Z.quot n (Zpos d))) eqn:C.
      * unfold Qcle. rewrite TQ, HX. unfold Qle, inject_Z. simpl. nia.
      * unfold Qcle. rewrite this_opp, TQ, HX. unfold Qle, inject_Z. simpl. lia.
Qed.
Print Assumptions C30_integer_partial.
(** Refuted for integer data: the PDP of f(x) = x at 1/2 is 0. *)
Theorem C30_refuted : exists y,
  pdp_1d_vectorized (CPred (map (fun r => r@0))) (mkData Int64 1 [qs [1]; qs [2]]) (qs [1 # 2]) 0 false = Ok [y] /\ y@0 <> (qs [1#2])@0.
Proof. eexists. split; [vm_compute; reflexivity|]. intros E. apply (f_equal this) in E. vm_compute in E. discriminate. Qed.
Print Assumptions C30_refuted.

(** * C31  d-PDP by finite differences *)
Lemma two_q : Q2Qc 2 = 1 + 1. Proof. apply Qc_is_canon. reflexivity. Qed.
Lemma central_quadratic a b c x : (a + b * (x + STEP) + c * ((x + STEP) * (x + STEP)) - (a + b * (x - STEP) + c * ((x - STEP) * (x - STEP)))) / (Q2Qc 2 * STEP) = b + Q2Qc 2 * c * x.
Proof. rewrite two_q. field. split; intros E; apply (f_equal this) in E; vm_compute in E; discriminate. Qed.
(** Models at most quadratic in x_s (with coefficients depending on the other features): the central difference is the exact derivative. *)
Theorem C31_quadratic : forall g A B C X xs s, dt X = Float64 -> wf_data X -> (s < dim X)%nat ->
  (forall r x, length r = dim X -> g (with_feature r s x) = A r + B r * x + C r * (x * x)) ->
  pdp_1d_vectorized (CPred (map g)) X xs s true = Ok (map (fun x => map (fun r => B r + Q2Qc 2 * C r * x) (rows X)) xs).
Proof.
  intros g A B C X xs s DT W S HQ. rewrite (vec_der_eq g X xs s W S), DT. f_equal. apply map_ext. intros x. apply map_ext_in. intros r Hr.
  change (list_set r s (store Float64 (x + STEP))) with (with_feature r s (x + STEP)). change (list_set r s (store Float64 (x - STEP))) with (with_feature r s (x - STEP)).
  rewrite !HQ by now apply W. apply central_quadratic.
Qed.
Print Assumptions C31_quadratic.
(** Hence DerPDP gives the same results with and without the exact Jacobian, whatever the limits, centering and outputs asked for. *)
Theorem C31_jacobian_agrees : forall model mins maxs g G A B C X rt s xs het cv all vec, model = map g -> dt X = Float64 -> wf_data X ->
  length mins = dim X -> length maxs = dim X -> (s < dim X)%nat -> mins@s < maxs@s -> vec = true \/ xs <> [] ->
  (forall r, length r = dim X -> length (G r) = dim X) ->
  (forall r x, length r = dim X -> g (with_feature r s x) = A r + B r * x + C r * (x * x)) ->
  (forall r x, length r = dim X -> (G (with_feature r s x))@s = B r + Q2Qc 2 * C r * x) ->
  snd (peval (mkPC (KDer None) model mins maxs) rt (pfresh X) s xs het cv all vec) =
  snd (peval (mkPC (KDer (Some (map G))) model mins maxs) rt (pfresh X) s xs het cv all vec).
Proof.
  intros model mins maxs g G A B C X rt s xs het cv all vec -> DT W L1 L2 S LH V HG HQ HJ.
  destruct (prep_cent cv) as [ce|e] eqn:PC; [|unfold peval; now rewrite PC].
  set (c1 := mkPC (KDer None) (map g) mins maxs). set (c2 := mkPC (KDer (Some (map G))) (map g) mins maxs).
  assert (R1 : row_object c1 (dim X) g G) by (split; [reflexivity|exact I]).
  assert (R2 : row_object c2 (dim X) g G) by (split; [reflexivity|split; [reflexivity|exact HG]]).
  rewrite (peval_fresh c1 g G X R1 W (conj L1 L2) rt s xs het cv ce all vec PC S LH V).
  rewrite (peval_fresh c2 g G X R2 W (conj L1 L2) rt s xs het cv ce all vec PC S LH V).
  assert (EW : rows (within c1 [s] X) = rows (within c2 [s] X)) by reflexivity. rewrite EW. set (Z := rows (within c2 [s] X)).
  assert (HZ : forall r, In r Z -> length r = dim X) by (intros r Hr; exact (within_wf c2 [s] X W r Hr)).
  assert (EV : forall r x, length r = dim X -> pvalue (p_kind c1) (dt X) g G s r x = pvalue (p_kind c2) (dt X) g G s r x).
  { intros r x Hr. cbn [p_kind c1 c2 pvalue]. rewrite DT. cbn [store]. change (list_set r s x) with (with_feature r s x). rewrite (HJ r x Hr).
    change (list_set r s (x + STEP)) with (with_feature r s (x + STEP)). change (list_set r s (x - STEP)) with (with_feature r s (x - STEP)).
    rewrite !HQ by exact Hr. apply central_quadratic. }
  f_equal. f_equal. unfold centered. apply map_ext. intros x. apply map_ext_in. intros r Hr. rewrite (EV r x) by now apply HZ. f_equal. unfold shift_at.
  destruct ce; cbn [shift]; [reflexivity|now apply EV, HZ|]. f_equal. apply map_ext. intros y. now apply EV, HZ.
Qed.
Print Assumptions C31_jacobian_agrees.
Example C31_instance :
  rmap showp (snd (peval (mkPC (KDer None) (map (fun r => r@0 * r@0 * r@1)) (qs [0; 0]) (qs [4; 30])) (fun v => v) (pfresh ex26X) 0 (qs [1; 3]) false (PyBool false) true true))
  = Ok [[Some 20; Some 40]; [Some 60; Some 120]]%Q.
Proof. vm_compute. reflexivity. Qed.

(** * C32  n-dimensional variants *)
(** [with_features r fs vs] is [r] with feature fs_j set to vs_j and the rest unchanged. *)
Theorem C32_with_features : forall fs r vs, NoDup fs -> length vs = length fs -> (forall f, In f fs -> (f < length r)%nat) ->
  length (with_features r fs vs) = length r /\
  (forall j, (j < length fs)%nat -> (with_features r fs vs)@(nth j fs 0%nat) = vs@j) /\
  (forall k, ~ In k fs -> (with_features r fs vs)@k = r@k).
Proof.
  intros fs r vs ND L HF. split; [apply with_features_length|]. split.
  - intros j Hj. apply with_features_set; auto. apply HF. now apply nth_In.
  - intros k Hk. now apply with_features_other.
Qed.
Print Assumptions C32_with_features.
Theorem C32_vectorized_partial : forall g X xs fs, dt X = Float64 -> rows X <> [] -> (forall x, In x xs -> length x = length fs) -> (forall f, In f fs -> (f < dim X)%nat) ->
  pdp_nd_vectorized (CPred (map g)) X xs (length fs) fs = Ok (map (fun x => Some (mean (map (fun r => g (with_features r fs x)) (rows X)))) xs).
Proof.
  intros g X xs fs DT NE LX HF. unfold pdp_nd_vectorized, rmap. rewrite (pdp_nd_matrix_eq g X xs (length fs) fs DT eq_refl LX HF). unfold bind. f_equal.
  unfold row_means. rewrite map_map. apply map_ext. intros x. apply np_mean_some. destruct (rows X); [congruence|discriminate].
Qed.
Print Assumptions C32_vectorized_partial.
Theorem C32_returned_partial : forall rt g X xs fs het, dt X = Float64 -> rows X <> [] -> (forall x, In x xs -> length x = length fs) -> (forall f, In f fs -> (f < dim X)%nat) ->
  let values x := map (fun r => g (with_features r fs x)) (rows X) in
  pdp_nd rt (CPred (map g)) X xs (length fs) fs het =
    Ok (map (fun x => Some (mean (values x))) xs,
        if het then Some (map (fun x => Some (rt (variance (values x)))) xs,
                          map (fun x => Some (rt (variance (values x)) / rt (qn (length (rows X))))) xs) else None).
Proof.
  intros rt g X xs fs het DT NE LX HF values. unfold pdp_nd. rewrite (pdp_nd_matrix_eq g X xs (length fs) fs DT eq_refl LX HF). cbn [rmap bind].
  assert (N : forall x, values x <> []) by (intros x E; apply NE; apply map_eq_nil in E; exact E).
  f_equal. unfold returned, row_stderrs, row_stds, row_means. rewrite !map_map.
  assert (M : forall x, np_mean (map (fun r => g (with_features r fs x)) (rows X)) = Some (mean (values x))) by (intros x; apply np_mean_some, N).
  assert (V : forall x, np_var (map (fun r => g (with_features r fs x)) (rows X)) = Some (variance (values x))) by (intros x; apply np_var_some, N).
  f_equal; [apply map_ext; exact M|]. destruct het; [|reflexivity]. f_equal. f_equal; apply map_ext; intros x; rewrite V; reflexivity.
Qed.
Print Assumptions C32_returned_partial.
Example C32_instance : rmap shown (pdp_nd_vectorized (CPred (map (fun r => r@0 * r@1 + r@2))) (mkData Float64 3 [qs [1; 1; 5]; qs [2; 2; 7]]) [qs [3; 4]; qs [1; 2]] 2 [0; 1]%nat)
  = Ok [Some 18; Some 8]%Q.
Proof. vm_compute. reflexivity. Qed.
(** Refuted: the loop variant raises TypeError for every model, data and non-empty list of features and positions; *)
Theorem C32_refuted_loop : forall m X x xs f fs, pdp_nd_non_vectorized m X (x :: xs) (length (f :: fs)) (f :: fs) = Raise TypeError.
Proof. intros. unfold pdp_nd_non_vectorized. rewrite Nat.eqb_refl. reflexivity. Qed.
Print Assumptions C32_refuted_loop.
(** and the vectorised variant fails on every Jacobian-returning model when two or more features are listed. *)
Theorem C32_refuted_jacobian : forall G X xs fs, wf_data X -> dt X = Float64 -> (forall x, In x xs -> length x = length fs) -> (forall f, In f fs -> (f < dim X)%nat) ->
  (forall r, length r = dim X -> length (G r) = dim X) -> (2 <= length fs)%nat -> xs <> [] -> rows X <> [] ->
  pdp_nd_vectorized (CJac (map G)) X xs (length fs) fs = Raise ValueError.
Proof. intros G X xs fs W DT LX HF HG L2 NX NR. apply pdp_nd_jac_raises; auto; lia. Qed.
Print Assumptions C32_refuted_jacobian.

(** * C54  The number of centering points chosen in fit *)
(** It is what a directly following centered eval uses (any limits, fresh object) ... *)
Theorem C54_next_eval_partial : forall c g X rt s n, p_kind c = KPDP -> p_model c = map g -> dt X = Float64 -> wf_data X -> limits_ok c (dim X) ->
  (s < dim X)%nat -> (p_mins c)@s < (p_maxs c)@s -> (1 <= n)%nat ->
  let Z := filter (fun r => ((p_mins c)@s <=? r@s) && (r@s <=? (p_maxs c)@s)) (rows X) in
  forall xs het all vec vec', vec' = true \/ xs <> [] ->
  snd (peval c rt (fst (pfit c (pfresh X) [s] (PyBool true) (PyInt (Z.of_nat n)) vec)) s xs het (PyBool true) all vec') =
    Ok (summary rt all het (mean_centered g Z s (linspace (p_mins c)@s (p_maxs c)@s n) xs)).
Proof.
  intros c g X rt s n K Hm DT W LIM S LH H1 Z xs het all vec vec' V.
  pose proof (ro27 c g X K Hm) as RO.
  assert (EZ : rows (within c [s] X) = Z). { unfold within, Z. cbn [rows]. apply filter_ext. intros r. cbn [forallb]. apply andb_true_r. }
  pose proof (pfit_feature_data c X LIM [] s ZeroIntegral (PyInt (Z.of_nat n)) vec S) as HD.
  pose proof (pfit_feature_norm c g (fun r => r) X RO W LIM [] s ZeroIntegral (PyInt (Z.of_nat n)) vec) as HN. rewrite within_nil in HD, HN.
  assert (SUC : exists nrm, snd (pfit_feature c X s ZeroIntegral (PyInt (Z.of_nat n)) vec) = Ok nrm).
  { unfold pfit_feature. rewrite (proj2 (Nat.ltb_lt _ _) S). destruct LIM as (L1 & L2). rewrite !(getn_ok _ s 0) by lia. unfold bind at 1 2.
    pose proof (drop_within c [] X s) as DW. rewrite within_nil in DW. rewrite DW. cbn [snd]. unfold pts_of.
    replace (Z.of_nat n <? 0)%Z with false by (symmetry; apply Z.ltb_ge; lia). rewrite Nat2Z.id. unfold bind at 1.
    assert (NE : linspace (p_mins c)@s (p_maxs c)@s n <> []). { intros E. apply (f_equal (@length _)) in E. rewrite linspace_length in E. simpl in E. lia. }
    rewrite (predict_eq c g (fun r => r) vec (within c [s] X) _ s RO (within_wf c [s] X W) S) by now right.
    unfold bind. rewrite col_means_eq by exact NE. eauto. }
  destruct SUC as (nrm & SUC). destruct (HN nrm S SUC) as [E0|(m & Hm1 & Hm2 & HNrm)]; [discriminate|].
  specialize (Hm1 eq_refl). unfold pts_of in Hm1. replace (Z.of_nat n <? 0)%Z with false in Hm1 by (symmetry; apply Z.ltb_ge; lia). rewrite Nat2Z.id in Hm1. injection Hm1 as <-.
  set (st := fst (pfit c (pfresh X) [s] (PyBool true) (PyInt (Z.of_nat n)) vec)).
  assert (ST : ps_data st = within c [s] X /\ ps_norm st s = Some nrm /\ ps_args st s = Some ZeroIntegral /\ ps_fitted st s = true).
  { unfold st, pfit. change (prep_cent (PyBool true)) with (Ok ZeroIntegral). cbv iota. simpl pfit_loop. unfold pfit_one.
    change (ps_data (pfresh X)) with X. destruct (pfit_feature c X s ZeroIntegral (PyInt (Z.of_nat n)) vec) as (X' & r). cbn [snd] in SUC. cbn [fst] in HD. subst X' r.
    cbn. rewrite !upd_same. auto. }
  destruct ST as (S1 & S2 & S3 & S4).
  assert (PR : prefit st s ZeroIntegral = Ok false). { unfold prefit. now rewrite S1, within_dim, (proj2 (Nat.ltb_lt _ _) S), S4, S3. }
  unfold peval. change (prep_cent (PyBool true)) with (Ok ZeroIntegral). cbv iota beta. rewrite PR. cbn [snd].
  rewrite (peval_fitted_eq c g (fun r => r) X RO W LIM rt st [s] s xs het ZeroIntegral all vec' (shift_at c g (fun r => r) X s n ZeroIntegral)); auto; [|discriminate|intros _; now rewrite S2, HNrm].
  rewrite EZ. unfold shift_at. rewrite K, DT. reflexivity.
Qed.
Print Assumptions C54_next_eval_partial.
(** ... but an intermediate eval with the other centering silently resets it to 100. *)
Definition ex54 := mkPC KPDP (map (fun r => r@0 * r@0)) (qs [0]) (qs [2]).
Definition ex54X := mkData Float64 1 [qs [0]; qs [2]].
Theorem C54_refuted : exists y1 y2,
  let st := fst (pfit ex54 (pfresh ex54X) [0%nat] (PyBool true) (PyInt 3) true) in
  snd (peval ex54 (fun v => v) st 0 (qs [0]) false (PyBool true) false true) = Ok (OMean [Some y1]) /\
  snd (peval ex54 (fun v => v) (prun ex54 (fun v => v) st [PEval 0 (qs [0]) false (PyStr "zero_start") false true]) 0 (qs [0]) false (PyBool true) false true)
    = Ok (OMean [Some y2]) /\ y1 <> y2.
Proof. eexists. eexists. split; [vm_compute; reflexivity|]. split; [vm_compute; reflexivity|]. intros E. apply (f_equal this) in E. vm_compute in E. discriminate. Qed.
Print Assumptions C54_refuted.

(** * C55  PDP is linear in the model *)
Lemma mean_linear {A} (p q : A -> Qc) al be l : l <> [] -> mean (map (fun a => al * p a + be * q a) l) = al * mean (map p l) + be * mean (map q l).
Proof.
  intros NE. unfold mean. rewrite !map_length. rewrite sumq_map_add.
  assert (E : forall c (k : A -> Qc), sumq (map (fun a => c * k a) l) = c * sumq (map k l)).
  { intros c0 k. clear. induction l as [|a l IH]; simpl; [ring|]. rewrite IH. ring. }
  rewrite !E. field. apply qn_neq0. destruct l; [congruence|simpl; lia].
Qed.
(** The mean curve of al*f + be*g is al times that of f plus be times that of g, for every centering mode and limits. *)
Theorem C55_linear : forall f g al be mins maxs X rt s xs cv vec,
  dt X = Float64 -> wf_data X -> length mins = dim X -> length maxs = dim X -> (s < dim X)%nat -> mins@s < maxs@s -> vec = true \/ xs <> [] ->
  (exists r, In r (rows X) /\ mins@s <= r@s <= maxs@s) -> prep_centering cv <> Raise AssertionError ->
  let pdp m := snd (peval (mkPC KPDP (map m) mins maxs) rt (pfresh X) s xs false cv false vec) in
  exists yf yg, pdp f = Ok (OMean (map Some yf)) /\ pdp g = Ok (OMean (map Some yg)) /\ length yf = length xs /\ length yg = length xs /\
    pdp (fun r => al * f r + be * g r) = Ok (OMean (map (fun p => Some (al * fst p + be * snd p)) (combine yf yg))).
Proof.
  intros f g al be mins maxs X rt s xs cv vec DT W L1 L2 S LH V (r0 & Hr0 & HB) PCn pdp.
  assert (PC : exists ce, prep_cent cv = Ok ce).
  { unfold prep_cent. destruct (prep_centering cv) as [w|e] eqn:E; [|destruct cv as [[|]|str| | |]; simpl in *; try congruence; destruct (_ || _)%bool; congruence].
    simpl. destruct w as [|str| | |]; eauto. destruct (String.eqb str "zero_start"); eauto. }
  destruct PC as (ce & PC).
  set (Z := filter (fun r => (mins@s <=? r@s) && (r@s <=? maxs@s)) (rows X)).
  assert (NE : Z <> []).
  { assert (In r0 Z) by (unfold Z; apply filter_In; split; [exact Hr0|]; apply andb_true_iff; split; apply Qcleb_le; apply HB). intros E. rewrite E in H. destruct H. }
  set (sh := fun m => shift (fun r x => m (with_feature r s x)) mins@s maxs@s 100 ce).
  set (y := fun m x => mean (map (fun r => m (with_feature r s x) - sh m r) Z)).
  assert (P : forall m, pdp m = Ok (OMean (map Some (map (y m) xs)))).
  { intros m. unfold pdp. set (c := mkPC KPDP (map m) mins maxs).
    rewrite (fresh27 c m X rt eq_refl eq_refl DT W (conj L1 L2) s xs false cv ce false vec PC S LH V). unfold summary. f_equal. f_equal.
    assert (EZ : rows (within c [s] X) = Z). { unfold within, Z. cbn [rows]. apply filter_ext. intros r. cbn [forallb]. apply andb_true_r. }
    rewrite EZ, map_map. exact (row_means_some (fun x r => m (with_feature r s x) - sh m r) Z xs NE). }
  exists (map (y f) xs), (map (y g) xs). rewrite !P, !map_length. repeat split; auto. f_equal. f_equal.
  rewrite combine_self_map, !map_map. apply map_ext. intros x. cbn [fst snd]. f_equal. unfold y.
  rewrite <- mean_linear by exact NE. f_equal. apply map_ext. intros r.
  assert (SH : sh (fun r => al * f r + be * g r) r = al * sh f r + be * sh g r).
  { unfold sh. destruct ce; cbn [shift]; [ring|reflexivity|]. apply mean_linear.
    intros E. apply (f_equal (@length _)) in E. rewrite linspace_length in E. discriminate. }
  rewrite SH. ring.
Qed.
Print Assumptions C55_linear.

(** * C56  The order of the instances does not matter *)
Lemma mean_perm a b : Permutation a b -> mean a = mean b.
Proof. intros P. unfold mean. now rewrite (sumq_perm _ _ P), (Permutation_length P). Qed.
Lemma variance_perm a b : Permutation a b -> variance a = variance b.
Proof. intros P. unfold variance. rewrite (mean_perm _ _ P). apply mean_perm. now apply Permutation_map. Qed.
Lemma np_mean_perm a b : Permutation a b -> np_mean a = np_mean b.
Proof.
  intros P. destruct a as [|x a]; [now rewrite (Permutation_nil P)|]. destruct b as [|y b]; [symmetry in P; now apply Permutation_nil in P|].
  rewrite !np_mean_some by discriminate. now rewrite (mean_perm _ _ P).
Qed.
Lemma np_var_perm a b : Permutation a b -> np_var a = np_var b.
Proof.
  intros P. destruct a as [|x a]; [now rewrite (Permutation_nil P)|]. destruct b as [|y b]; [symmetry in P; now apply Permutation_nil in P|].
  rewrite !np_var_some by discriminate. now rewrite (variance_perm _ _ P).
Qed.
Lemma filter_perm {A} (p : A -> bool) a b : Permutation a b -> Permutation (filter p a) (filter p b).
Proof.
  induction 1; simpl; auto.
  - destruct (p x); auto.
  - destruct (p x), (p y); auto. constructor.
  - eapply perm_trans; eauto.
Qed.
Theorem C56_instance_order : forall c g G X Y rt s xs het cv vec, row_object c (dim X) g G -> wf_data X -> limits_ok c (dim X) ->
  dt Y = dt X -> dim Y = dim X -> Permutation (rows X) (rows Y) ->
  (s < dim X)%nat -> (p_mins c)@s < (p_maxs c)@s -> vec = true \/ xs <> [] ->
  snd (peval c rt (pfresh X) s xs het cv false vec) = snd (peval c rt (pfresh Y) s xs het cv false vec).
Proof.
  intros c g G X Y rt s xs het cv vec RO W LIM DT DM P S LH V. destruct (prep_cent cv) as [ce|e] eqn:PC; [|unfold peval; now rewrite PC].
  assert (WY : wf_data Y) by (intros r Hr; rewrite DM; apply W; eapply Permutation_in; [symmetry; exact P|exact Hr]).
  rewrite (peval_fresh c g G X RO W LIM rt s xs het cv ce false vec PC S LH V).
  rewrite (peval_fresh c g G Y) with (ce := ce); auto; try (rewrite DM; assumption).
  set (ZX := rows (within c [s] X)). set (ZY := rows (within c [s] Y)).
  assert (PZ : Permutation ZX ZY) by (unfold ZX, ZY, within; cbn [rows]; now apply filter_perm).
  unfold shift_at. rewrite DT. set (v := pvalue (p_kind c) (dt X) g G s). set (sh := shift v _ _ _ ce).
  assert (PR : forall x, Permutation (map (fun r => v r x - sh r) ZX) (map (fun r => v r x - sh r) ZY)) by (intros; now apply Permutation_map).
  assert (M : row_means (centered v sh ZX xs) = row_means (centered v sh ZY xs)).
  { unfold row_means, centered. rewrite !map_map. apply map_ext. intros x. apply np_mean_perm, PR. }
  assert (N : row_stds rt (centered v sh ZX xs) = row_stds rt (centered v sh ZY xs)).
  { unfold row_stds, centered. rewrite !map_map. apply map_ext. intros x. f_equal. apply np_var_perm, PR. }
  unfold summary. now rewrite M, N.
Qed.
Print Assumptions C56_instance_order.
Example C56_instance : Permutation (rows ex26X) [qs [2; 20]; qs [1; 10]] /\
  snd (peval ex26 (fun v => v) (pfresh ex26X) 0 (qs [3; 4]) true (PyBool true) false true) =
  snd (peval ex26 (fun v => v) (pfresh (mkData Float64 2 [qs [2; 20]; qs [1; 10]])) 0 (qs [3; 4]) true (PyBool true) false true).
Proof.
  split; [constructor|].
  apply (C56_instance_order ex26 (fun r => r@0 * r@1) (fun r => r)).
  - split; reflexivity.
  - intros r [<-|[<-|[]]]; reflexivity.
  - split; reflexivity.
  - reflexivity.
  - reflexivity.
  - constructor.
  - repeat constructor.
  - apply Qcltb_lt. reflexivity.
  - now left.
Qed.

(** * C57  points_for_centering="all" *)
(** The documented value "all" raises TypeError whenever constants are computed by averaging, on every object and model. *)
Theorem C57_refuted : forall c X s vec str, limits_ok c (dim X) -> (s < dim X)%nat -> snd (pfit c (pfresh X) [s] (PyBool true) (PyStr str) vec) = Raise TypeError.
Proof.
  intros c X s vec str (L1 & L2) S. unfold pfit. change (prep_cent (PyBool true)) with (Ok ZeroIntegral). cbv iota. simpl pfit_loop. unfold pfit_one, pfit_feature.
  change (ps_data (pfresh X)) with X. rewrite (proj2 (Nat.ltb_lt _ _) S), !(getn_ok _ s 0) by lia. reflexivity.
Qed.
Print Assumptions C57_refuted.
