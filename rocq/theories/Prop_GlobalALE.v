(** Properties C17-C24, C35, C53 of the ALE and RHALE objects (global_effect.py, global_effect_ale.py).
    Throughout: [c] is an object (its class, data, model, axis limits); [E0] the user's data_effect (RHALE) or None;
    [ks] an arbitrary history of fit/eval calls on the object, [run c rt (fresh E0) ks] the state it leaves;
    [rt] stands for np.sqrt. [eval] returns (curve, heterogeneity). *)
From Verif Require Import Base Numpy Spec NumpyFacts Utils UtilsProofs FillProofs AccProofs LocalProofs ParamsProofs
  Helpers Integrate HelpersProofs Binning BinProofs GreedyProofs DPProofs LimitsProofs GlobalALE ALEState ALEHist ALEFit ALEProps ALESuccess ALECurves.
Open Scope Qc_scope.
Open Scope list_scope.

(** All Fixed binnings requested in the history have at least one bin. *)
Definition positive_bins (k : call) : Prop :=
  match k with CallFit _ (MFixed n _ _) _ => (1 <= n)%nat | _ => True end.
Lemma positive_bins_ok ks : Forall positive_bins ks -> Forall (methods_ok bins_pos) ks.
Proof. apply Forall_impl. intros [fs [|n mp cl| |] cv|]; simpl; auto. Qed.

(** Values of feature [f] inside the axis range. *)
Definition values_in_range (c : config) (f : nat) : list Qc :=
  filter (fun x => ((c_mins c)@f <=? x) && (x <=? (c_maxs c)@f)) (map (fun r => r@f) (rows (c_data c))).
Lemma values_in_range_eq c f : fit_xs c f = values_in_range c f.
Proof. unfold fit_xs, values_in_range, kept, col. cbn [rows]. rewrite filter_map_comm. reflexivity. Qed.

(** * C19  ALE of an affine model *)
(** Heterogeneity is exactly 0, whatever the history and binning. *)
Theorem C19_no_heterogeneity : forall c b a rt ks f xs cv st' y h,
  c_kind c = KALE -> c_model c = map (affine b a) -> dt (c_data c) = Float64 -> wf_data (c_data c) -> length a = dim (c_data c) ->
  rt 0 = 0 -> Forall positive_bins ks ->
  eval c rt (run c rt (fresh None) ks) f xs true cv = (st', Ok (y, Some h)) -> forall v, In v h -> v = 0.
Proof.
  intros c b a rt ks f xs cv st' y h K Hm Hdt Hwf Ha R F H v Hv.
  destruct (eval_after_history c None bins_pos (fun f p => lo_of c f < hi_of c f -> exists m, bins_pos m /\ pfit c None f m = Ok p) rt ks f xs true cv st' y (Some h)
    (default_bins_pos c) (fun f0 m0 p0 Hm0 Hp0 _ => ex_intro _ m0 (conj Hm0 Hp0)) (positive_bins_ok ks F) H) as (ce & p & nc & g & _ & _ & HP & LH & _ & _ & _ & HH & _).
  destruct (HP LH) as (m & BP & PF).
  destruct (pfit_affine c b a None f m p K Hm Hdt Hwf Ha BP PF LH) as (n & mp & cl & l & es & _ & _ & _ & L2 & I & U & P & HMem).
  destruct (HH eq_refl) as (gh & Hgh & E). injection E as ->. apply in_map_iff in Hv as (x & <- & _).
  pose proof (usable_heter rt _ _ _ _ [x] U P) as UH. rewrite Hgh in UH. simpl in UH. injection UH as ->.
  apply (const_members_heter rt _ _ _ _ x R U P). rewrite add_last_length. intros k Hk. eexists. intros e He. exact (HMem k e Hk He).
Qed.
Print Assumptions C19_no_heterogeneity.

(** The curve is the line a_s (x - start) up to |a_s| * 1e-8 * (number of bins), on a feature that is not treated as
    categorical by any of the binnings used. (What is missing: categorical features, see C19_refuted; and the 1e-8 itself,
    which comes from the widened last bin.) *)
Definition noncategorical (c : config) (f N : nat) (k : call) : Prop :=
  match k with
  | CallFit _ (MFixed n _ cl) _ => (1 <= n <= N)%nat /\ (cl < length (unique (values_in_range c f)))%nat
  | _ => True
  end.
Theorem C19_affine_curve_partial : forall c b a rt ks f xs het st' y h N,
  c_kind c = KALE -> c_model c = map (affine b a) -> dt (c_data c) = Float64 -> wf_data (c_data c) -> length a = dim (c_data c) ->
  (15 < length (unique (values_in_range c f)))%nat -> (20 <= N)%nat -> Forall (noncategorical c f N) ks ->
  eval c rt (run c rt (fresh None) ks) f xs het (PyBool false) = (st', Ok (y, h)) ->
  length y = length xs /\
  forall i, (i < length xs)%nat -> (c_mins c)@f <= xs@i <= (c_maxs c)@f ->
    Qcabs (y@i - a@f * (xs@i - (c_mins c)@f)) <= Qcabs a@f * (EPS * qn N).
Proof.
  intros c b a rt ks f xs het st' y h N K Hm Hdt Hwf Ha HU HN F H.
  set (M := fun m => bins_pos m /\ forall n mp cl, ale_method m = Some (MFixed n mp cl) -> (cl < length (unique (fit_xs c f)))%nat /\ (n <= N)%nat).
  assert (Md : M (default_method c)).
  { split; [exact I|]. unfold default_method. rewrite K. intros n mp cl E. simpl in E. injection E as <- <- <-. rewrite values_in_range_eq. lia. }
  assert (Fk : Forall (methods_ok M) ks).
  { eapply Forall_impl; [|exact F]. intros [fs [s|n mp cl|n mp d cl|n mp d cl] cv|]; simpl; auto; unfold M; simpl; intros Q.
    - split; [exact I|]. intros n mp cl E. destruct (String.eqb s "fixed"); [|discriminate]. injection E as <- <- <-. rewrite values_in_range_eq. lia.
    - split; [lia|]. intros n' mp' cl' E. injection E as <- <- <-. rewrite values_in_range_eq. lia.
    - split; [exact I|]. discriminate.
    - split; [exact I|]. discriminate. }
  destruct (eval_after_history c None M (fun f p => lo_of c f < hi_of c f -> exists m, M m /\ pfit c None f m = Ok p) rt ks f xs het (PyBool false) st' y h
    Md (fun f0 m0 p0 Hm0 Hp0 _ => ex_intro _ m0 (conj Hm0 Hp0)) Fk H) as (ce & p & nc & g & PC & _ & HP & LH & _ & Hg & -> & _).
  injection PC as <-. destruct (HP LH) as (m & (BP & HM) & PF). split; [apply map_length|].
  intros i Hi Hx. rewrite map_nth0 by exact Hi. cbn [shift_of].
  destruct (affine_curve_bound c b a None f m p xs@i N K Hm Hdt Hwf Ha BP PF LH HM Hx) as (g' & Hg' & B).
  assert (E : g xs@i = g' xs@i). { pose proof (Hg [xs@i]) as Q. rewrite Hg' in Q. simpl in Q. now injection Q. }
  rewrite E. replace (g' xs@i - 0) with (g' xs@i) by ring. exact B.
Qed.
Print Assumptions C19_affine_curve_partial.

(** Refuted on categorical features: values {0, 1, 3}, model f(x) = x: the curve rises by about 7/2 between 1 and 3. *)
Definition ex19 := mkCfg KALE (mkData Float64 1 [qs [0]; qs [0]; qs [1]; qs [1]; qs [3]; qs [3]]) (map (affine 0 (qs [1]))) (qs [0]) (qs [3]).
Theorem C19_refuted : exists y1 y3,
  snd (eval ex19 (fun v => v) (fresh None) 0 (qs [1; 3]) false (PyBool false)) = Ok ([y1; y3], None) /\
  y3 - y1 <> (qs [1])@0 * (Q2Qc 3 - Q2Qc 1).
Proof. eexists. eexists. split; [vm_compute; reflexivity|]. intros E. apply (f_equal this) in E. vm_compute in E. discriminate. Qed.
Print Assumptions C19_refuted.
(** An instance with 16 values (not categorical), 2 points in a bin: the hypotheses of the theorems are met. *)
Definition ex19b := mkCfg KALE (mkData Float64 1 (map (fun i => [qn i / Q2Qc 2]) (seq 0 40))) (map (affine (Q2Qc 5) (qs [2]))) [0] [qn 39 / Q2Qc 2].
Example C19_instance : (15 < length (unique (values_in_range ex19b 0)))%nat /\
  rmap (fun p => (show (fst p), option_map show (snd p))) (snd (eval ex19b (fun v => v) (fresh None) 0 (qs [0; 1; 2]) true (PyBool false))) = Ok ([0; 2; 4]%Q, Some [0; 0; 0]%Q).
Proof. split; [vm_compute; repeat constructor|vm_compute; reflexivity]. Qed.

(** * C20  Centering *)
(** [center_grid c f] is the grid of 99 midpoints of linspace(lo, hi, 100). *)
Theorem C20_zero_start : forall c E0 rt ks f xs het st' y h,
  eval c rt (run c rt (fresh E0) ks) f xs het (PyStr "zero_start") = (st', Ok (y, h)) ->
  forall i, (i < length xs)%nat -> xs@i = (c_mins c)@f -> y@i = 0.
Proof.
  intros c E0 rt ks f xs het st' y h H i Hi Hx.
  destruct (eval_ok c rt _ f xs het _ st' y h (run_inv c rt ks (fresh E0) (inv_fresh c E0)) H) as (ce & p & nc & g & PC & _ & _ & _ & _ & _ & _ & _ & _ & -> & _).
  injection PC as <-. rewrite map_nth0 by exact Hi. cbn [shift_of]. rewrite Hx. unfold lo_of. ring.
Qed.
Print Assumptions C20_zero_start.

Theorem C20_zero_integral : forall c E0 rt ks f het cv st' y h, cv = PyBool true \/ cv = PyStr "zero_integral" ->
  eval c rt (run c rt (fresh E0) ks) f (midpoints (linspace (c_mins c)@f (c_maxs c)@f 100)) het cv = (st', Ok (y, h)) ->
  mean y = 0.
Proof.
  intros c E0 rt ks f het cv st' y h Hcv H. set (xs := midpoints _) in *.
  destruct (eval_ok c rt _ f xs het _ st' y h (run_inv c rt ks (fresh E0) (inv_fresh c E0)) H) as (ce & p & nc & g & PC & _ & _ & _ & _ & _ & _ & _ & _ & -> & _).
  assert (ce = ZeroIntegral) by (destruct Hcv as [->| ->]; injection PC as <-; reflexivity). subst ce.
  rewrite mean_sub_const by apply (center_grid_nonempty c f). cbn [shift_of]. unfold center_grid, lo_of, hi_of. fold xs. ring.
Qed.
Print Assumptions C20_zero_integral.

(** Centered and uncentered curves of the same object differ by one constant for all positions, and the heterogeneity
    is the same. (After the centered call the object holds the fit that produced the result.) *)
Theorem C20_constant_shift : forall c E0 rt ks f xs het cv st' y h,
  eval c rt (run c rt (fresh E0) ks) f xs het cv = (st', Ok (y, h)) ->
  exists k, forall zs, exists y0 h0,
    eval c rt st' f zs het (PyBool false) = (st', Ok (y0, h0)) /\
    eval c rt st' f zs het cv = (st', Ok (map (fun v => v - k) y0, h0)) /\
    (zs = xs -> y = map (fun v => v - k) y0 /\ h = h0).
Proof.
  intros c E0 rt ks f xs het cv st' y h H.
  destruct (eval_ok c rt _ f xs het _ st' y h (run_inv c rt ks (fresh E0) (inv_fresh c E0)) H) as (ce & p & nc & g & PC & FE & FF & Fi & L1 & L2 & D & LH & Hg & Ey & Hh & Hn & Hce).
  exists (shift_of c f ce g). intros zs.
  assert (HT : het = true -> exists gh, forall zs, eval_heter rt p zs = Ok (map gh zs)).
  { intros E. destruct (Hh E) as (gh & Q & _). eauto. }
  destruct (eval_uncentered c rt st' f zs het p nc g Fi D L1 L2 LH FE Hg HT) as (h0 & A & B & C).
  destruct (eval_again c rt st' f zs het p nc g ce cv PC Fi D L1 L2 LH FE Hg HT Hce) as (h1 & A1 & B1 & C1).
  assert (h1 = h0).
  { destruct het; [|rewrite C, C1; reflexivity]. destruct (B eq_refl) as (q & Q1 & ->). destruct (B1 eq_refl) as (q' & Q1' & ->). congruence. }
  subst h1. exists (map g zs), h0. split; [exact A|]. split; [rewrite map_map; exact A1|].
  intros ->. split; [rewrite map_map; exact Ey|]. destruct het; [|rewrite C, Hn; reflexivity].
  destruct (B eq_refl) as (q & Q1 & ->). destruct (Hh eq_refl) as (gh & Q2 & ->). rewrite Q2 in Q1. now injection Q1 as <-.
Qed.
Print Assumptions C20_constant_shift.
Example C20_instance :
  rmap (fun p => (show (fst p), option_map show (snd p))) (snd (eval ex19 (fun v => v) (fresh None) 0 (qs [0; 1; 3]) true (PyStr "zero_start"))) = Ok ([0; 5#4; 475000001#100000000]%Q, Some [0; 0; 0]%Q) /\
  rmap (fun p => (show (fst p), option_map show (snd p))) (snd (eval ex19 (fun v => v) (fresh None) 0 (qs [0; 1; 3]) true (PyBool false))) = Ok ([1#2; 7#4; 525000001#100000000]%Q, Some [0; 0; 0]%Q).
Proof. split; vm_compute; reflexivity. Qed.

(** * C21  RHALE with a constant Jacobian column *)
(** [E] is the effect matrix the object uses: the user's data_effect, or the (exact or numerical) Jacobian. *)
Theorem C21_rhale_affine : forall c jac E0 E a rt ks f xs cv st' y h,
  c_kind c = KRHALE jac -> match E0 with Some e => Ok e | None => compile c jac end = Ok E -> (forall r, In r E -> r@f = a) ->
  rt 0 = 0 -> Forall positive_bins ks ->
  eval c rt (run c rt (fresh E0) ks) f xs true cv = (st', Ok (y, Some h)) ->
  exists l k, (exists p nc, st_fe st' f = Some (p, nc) /\ ap_limits p = l) /\ (cv = PyBool false -> k = 0) /\
    (forall i, (i < length xs)%nat -> l@0 <= xs@i <= l@(length l - 1) -> xs@i <= BIG_M \/ xs@i < l@(length l - 1) ->
       y@i = a * (xs@i - l@0) - k) /\
    (forall v, In v h -> v = 0).
Proof.
  intros c jac E0 E a rt ks f xs cv st' y h K HE HA R F H.
  destruct (eval_after_history c E0 bins_pos (fun f p => lo_of c f < hi_of c f -> exists m, bins_pos m /\ pfit c E0 f m = Ok p) rt ks f xs true cv st' y (Some h)
    (default_bins_pos c) (fun f0 m0 p0 Hm0 Hp0 _ => ex_intro _ m0 (conj Hm0 Hp0)) (positive_bins_ok ks F) H) as (ce & p & nc & g & PC & FE & HP & LH & _ & Hg & -> & HH & _).
  destruct (HP LH) as (m & BP & PF).
  destruct (pfit_const c jac E0 E a f m p K HE HA BP PF LH) as (es & l & U & P & Hes).
  pose proof U as (LE & L2 & I & C). destruct (ale_params_values _ _ _ LE L2 I C p P) as (El & _).
  exists l, (shift_of c f ce g). split; [eauto|]. split; [intros ->; injection PC as <-; reflexivity|].
  destruct (const_effects _ _ _ _ a U P Hes) as (_ & CE). split.
  - intros i Hi H1 H2. rewrite map_nth0 by exact Hi. f_equal. rewrite <- CE by assumption.
    pose proof (Hg [xs@i]) as Q. rewrite (usable_unnorm _ _ _ _ _ U P) in Q. simpl in Q. now injection Q.
  - intros v Hv. destruct (HH eq_refl) as (gh & Hgh & Eh). injection Eh as ->. apply in_map_iff in Hv as (x & <- & _).
    pose proof (usable_heter rt _ _ _ _ [x] U P) as UH. rewrite Hgh in UH. simpl in UH. injection UH as ->.
    apply (const_members_heter rt _ _ _ _ x R U P). intros k Hk. exists a. intros e He. apply Hes. eapply members_in; eauto.
Qed.
Print Assumptions C21_rhale_affine.
(** The numerical Jacobian of an affine model qualifies, so the theorem applies to RHALE without model_jac. *)
Theorem C21_affine_model_qualifies : forall c b a, c_kind c = KRHALE None -> c_model c = map (affine b a) ->
  dt (c_data c) = Float64 -> wf_data (c_data c) -> length a = dim (c_data c) ->
  exists E, compile c None = Ok E /\ length E = length (rows (c_data c)) /\ forall f r, In r E -> r@f = a@f.
Proof.
  intros c b a K Hm Hdt Hwf Ha. unfold compile. rewrite Hm, (jacobian_affine b a (c_data c) EPS Hdt) by (auto; intros Q; pose proof EPS_pos; qlra).
  eexists. split; [reflexivity|]. split; [apply map_length|]. intros f r Hr. apply in_map_iff in Hr as (r0 & <- & _). reflexivity.
Qed.
Print Assumptions C21_affine_model_qualifies.
Definition ex21 := mkCfg (KRHALE None) (mkData Float64 2 [qs [0; 5]; qs [0; 7]; qs [1; 1]; qs [1; 2]; qs [3; 0]; qs [3; 9]]) (map (affine 0 (qs [2; -1]))) (qs [0; 0]) (qs [3; 9]).
Example C21_instance :
  rmap (fun p => (show (fst p), option_map show (snd p))) (snd (eval ex21 (fun v => v) (fresh None) 0 (qs [0; 1; 3]) true (PyBool false))) = Ok ([1; 3; 7]%Q, Some [0; 0; 0]%Q).
Proof. vm_compute. reflexivity. Qed.

(** * C22  Heterogeneity *)
Theorem C22_heterogeneity : forall c E0 rt ks f xs cv st' y h,
  (forall v, 0 <= v -> 0 <= rt v) -> Forall positive_bins ks ->
  eval c rt (run c rt (fresh E0) ks) f xs true cv = (st', Ok (y, Some h)) ->
  length h = length xs /\
  (forall i, (i < length xs)%nat -> 0 <= h@i) /\
  (forall i j, (i < length xs)%nat -> (j < length xs)%nat -> xs@i <= xs@j -> h@i <= h@j) /\
  exists p nc, st_fe st' f = Some (p, nc) /\ forall i, (i < length xs)%nat -> xs@i <= (ap_limits p)@0 -> h@i = 0.
Proof.
  intros c E0 rt ks f xs cv st' y h R F H.
  destruct (eval_after_history c E0 bins_pos (fun f p => lo_of c f < hi_of c f -> exists m, bins_pos m /\ pfit c E0 f m = Ok p) rt ks f xs true cv st' y (Some h)
    (default_bins_pos c) (fun f0 m0 p0 Hm0 Hp0 _ => ex_intro _ m0 (conj Hm0 Hp0)) (positive_bins_ok ks F) H) as (ce & p & nc & g & _ & FE & HP & LH & _ & _ & _ & HH & _).
  destruct (HP LH) as (m & BP & PF). destruct (pfit_usable c E0 f m p BP PF LH) as (es & l & U & P).
  destruct (HH eq_refl) as (gh & Hgh & Eh). injection Eh as ->.
  assert (EQ : forall x, gh x = acc_curve l (map rt (ap_var p)) x).
  { intros x. pose proof (usable_heter rt _ _ _ _ [x] U P) as UH. rewrite Hgh in UH. simpl in UH. now injection UH. }
  destruct (heter_shape rt _ _ _ _ R U P) as (A & B & C).
  split; [apply map_length|]. split; [intros i Hi; rewrite map_nth0, EQ by exact Hi; apply A|].
  split; [intros i j Hi Hj L; rewrite !map_nth0, !EQ by assumption; now apply B|].
  exists p, nc. split; [exact FE|]. intros i Hi L. rewrite map_nth0, EQ by exact Hi. now apply C.
Qed.
Print Assumptions C22_heterogeneity.
Definition ex22 := mkCfg (KRHALE None) (mkData Float64 2 [qs [0; 5]; qs [0; 7]; qs [1; 1]; qs [1; 2]; qs [3; 0]; qs [3; 9]]) (map (fun r => r@0 * r@1)) (qs [0; 0]) (qs [3; 9]).
Example C22_instance :
  rmap (fun p => option_map show (snd p)) (snd (eval ex22 (fun v => v) (fresh None) 0 (qs [-1; 0; 1; 3]) true (PyBool false))) = Ok (Some [0; 1#2; 9#8; 173#8]%Q).
Proof. vm_compute. reflexivity. Qed.

(** * C23  No stale state *)
Theorem C23_history_independent : forall c E0 rt ks f xs het cv,
  (* every fit uses the default binning: the string "fixed" for ALE, "greedy" for RHALE *)
  Forall (fun k => match k with
                   | CallFit _ m _ => m = MStr (match c_kind c with KALE => "fixed" | KRHALE _ => "greedy" end)
                   | CallEval _ _ _ _ => True end) ks ->
  snd (eval c rt (run c rt (fresh E0) ks) f xs het cv) = snd (eval c rt (fresh E0) f xs het cv).
Proof. intros c E0 rt ks f xs het cv F. now apply (history_independent c E0 rt ks f xs het cv). Qed.
Print Assumptions C23_history_independent.
Example C23_instance : run ex19 (fun v => v) (fresh None) [CallFit [0%nat] (MStr "fixed") (PyBool true); CallEval 0 (qs [1]) true (PyBool false)] <> fresh None /\
  rmap (fun p => show (fst p)) (snd (eval ex19 (fun v => v) (run ex19 (fun v => v) (fresh None) [CallFit [0%nat] (MStr "fixed") (PyBool true); CallEval 0 (qs [1]) true (PyBool false)]) 0 (qs [0; 1; 3]) false (PyStr "zero_start"))) = Ok [0; 5#4; 475000001#100000000]%Q.
Proof. split; [intros E; apply (f_equal (fun s => st_fitted s 0%nat)) in E; vm_compute in E; discriminate|vm_compute; reflexivity]. Qed.

(** * C24  A user-chosen binning survives evaluation *)
(** Refuted: fit with one single bin, uncentered; then eval(centering=True) silently refits with the default
    binning, and returns something else than fit(centering=True) followed by the same eval. *)
Definition ex24 := mkCfg KALE (mkData Float64 1 [qs [0]; qs [0]; qs [1]; qs [1]; qs [3]; qs [3]]) (map (fun r => r@0 * r@0)) (qs [0]) (qs [3]).
Theorem C24_refuted : exists y1 y2,
  rmap fst (snd (eval ex24 (fun v => v) (run ex24 (fun v => v) (fresh None) [CallFit [0%nat] (MFixed 1 (Some 0%nat) 2) (PyBool false)]) 0 (qs [0; 1]) false (PyBool true))) = Ok y1 /\
  rmap fst (snd (eval ex24 (fun v => v) (run ex24 (fun v => v) (fresh None) [CallFit [0%nat] (MFixed 1 (Some 0%nat) 2) (PyBool true)]) 0 (qs [0; 1]) false (PyBool true))) = Ok y2 /\
  y1@1 - y1@0 <> y2@1 - y2@0.
Proof.
  eexists. eexists. split; [vm_compute; reflexivity|]. split; [vm_compute; reflexivity|].
  intros E. apply (f_equal this) in E. vm_compute in E. discriminate.
Qed.
Print Assumptions C24_refuted.
(** What holds: after a successful fit(f, method, centering), eval with the same centering or with centering=False uses
    exactly the fitted bins: it does not change the object at all. *)
Theorem C24_same_centering_partial : forall c rt st f m cv cv' st1 xs het,
  snd (fit c st [f] m cv) = Ok tt -> st1 = fst (fit c st [f] m cv) -> (cv' = cv \/ cv' = PyBool false) ->
  fst (eval c rt st1 f xs het cv') = st1.
Proof.
  intros c rt st f m cv cv' st1 xs het H E Hcv. unfold fit in H, E. destruct (method_allowed c m); [|discriminate].
  destruct (prep_cent cv) as [ce|] eqn:PC; [|discriminate]. simpl in H, E.
  destruct (fit_one c st f m ce) as [s2 [u|e]] eqn:F; [|discriminate]. simpl in E. subst st1.
  destruct (fit_one_ok c st f m ce s2 u F) as (s3 & p & z & FF & FE & A & Fi & N).
  destruct (fit_feature_limits c st f m s3 p FF) as (D & _).
  assert (R : forall ce', (ce' = ce \/ ce' = NoCent) -> refit c s2 f ce' = Ok false).
  { intros ce' Q. unfold refit. destruct (Nat.ltb_spec f (dim (c_data c))); [|lia]. rewrite Fi, A. cbn [negb].
    destruct Q as [->| ->]; [|reflexivity]. destruct ce; reflexivity. }
  unfold eval. destruct Hcv as [->| ->].
  - rewrite PC, R by auto. reflexivity.
  - change (prep_cent (PyBool false)) with (Ok NoCent). cbv iota. rewrite R by auto. reflexivity.
Qed.
Print Assumptions C24_same_centering_partial.
Example C24_instance : snd (fit ex24 (fresh None) [0%nat] (MFixed 1 (Some 0%nat) 2) (PyBool true)) = Ok tt.
Proof. vm_compute. reflexivity. Qed.

(** * C53  When fit succeeds *)
(** Refuted: two instances are enough to make the default ALE fit raise ValueError (every bin holds one instance, all bin
    variances are NaN and fill_nans has nothing to interpolate from); also 16 evenly spaced instances. *)
Definition ex53 (n : nat) := mkCfg KALE (mkData Float64 1 (map (fun i => [qn i]) (seq 0 n))) (map (fun r => r@0)) [0] [qn (n - 1)].
Theorem C53_refuted : snd (fit (ex53 2) (fresh None) [0%nat] (MStr "fixed") (PyBool true)) = Raise ValueError /\
  snd (fit (ex53 16) (fresh None) [0%nat] (MStr "fixed") (PyBool true)) = Raise ValueError.
Proof. split; vm_compute; reflexivity. Qed.
Print Assumptions C53_refuted.

(** Exact condition for ALE with a row-wise model: the limits found are always usable and the fit succeeds iff some bin
    holds two instances. *)
Theorem C53_ale_condition : forall c g f m n mp cl l, c_model c = map g -> (f < dim (c_data c))%nat ->
  (f < length (c_mins c))%nat -> (f < length (c_maxs c))%nat -> (c_mins c)@f < (c_maxs c)@f ->
  m = MFixed n mp cl \/ (m = MStr "fixed" /\ n = 20%nat /\ mp = Some 0%nat /\ cl = 15%nat) -> (1 <= n)%nat ->
  find_limits_b (mkB (values_in_range c f) [] (c_mins c)@f (c_maxs c)@f) m = Ok (LArr l) ->
  (two_in_a_bin l (values_in_range c f) -> exists p, ale_fit_feature c f m = Ok p) /\
  (~ two_in_a_bin l (values_in_range c f) -> ale_fit_feature c f m = Raise ValueError).
Proof.
  intros c g f m n mp cl l Hm Hf L1 L2 LH Mm Hn F. rewrite <- values_in_range_eq in *.
  assert (Q : fixed_find (mkB (fit_xs c f) [] (lo_of c f) (hi_of c f)) n mp cl = Ok (LArr l) /\ ale_fit_feature c f m = ale_fit_feature c f (MFixed n mp cl)).
  { destruct Mm as [->|(-> & -> & -> & ->)]; (split; [exact F|reflexivity]). }
  destruct Q as (Q & ->). exact (ale_fit_outcome c f Hf L1 L2 LH g n mp cl l Hm Hn Q).
Qed.
Print Assumptions C53_ale_condition.

(** Default options succeed with more than 20 (ALE) / 100 (RHALE) instances in the axis range, at least two distinct values. *)
Theorem C53_ale_default_partial : forall c g f st cv, c_kind c = KALE -> c_model c = map g -> (f < dim (c_data c))%nat ->
  (f < length (c_mins c))%nat -> (f < length (c_maxs c))%nat -> (c_mins c)@f < (c_maxs c)@f ->
  (exists u v, In u (values_in_range c f) /\ In v (values_in_range c f) /\ u <> v) -> (20 < length (values_in_range c f))%nat ->
  prep_centering cv <> Raise AssertionError ->
  snd (fit c st [f] (MStr "fixed") cv) = Ok tt.
Proof.
  intros c g f st cv K Hm Hf L1 L2 LH (u & v & Hu & Hv & N) H20 Hcv. rewrite <- values_in_range_eq in *.
  assert (U2 : (2 <= length (unique (fit_xs c f)))%nat).
  { apply unique_in in Hu, Hv. destruct (unique (fit_xs c f)) as [|a [|b t]]; simpl in *; [contradiction| |lia]. destruct Hu as [->|[]], Hv as [->|[]]. congruence. }
  assert (DM : MStr "fixed" = default_method c) by (unfold default_method; now rewrite K). rewrite DM.
  destruct (ale_default_succeeds c f Hf L1 L2 LH g Hm U2 H20) as (p & P).
  unfold fit. rewrite default_allowed.
  destruct (prep_cent cv) as [ce|e] eqn:PC.
  2:{ exfalso. apply Hcv. unfold prep_cent in PC. destruct cv as [[|]|s| | |]; try discriminate; try reflexivity. simpl in PC |- *.
      destruct (String.eqb s "zero_start" || String.eqb s "zero_integral")%bool; [|reflexivity]. simpl in PC. destruct (String.eqb s "zero_start"); discriminate. }
  assert (FF : fit_feature c st f (default_method c) = (st, Ok p)).
  { unfold fit_feature, default_method. rewrite K. now rewrite P. }
  destruct (fit_one_succeeds c st f (default_method c) ce st p (default_bins_pos c) LH FF) as (st' & E). simpl. rewrite E. reflexivity.
Qed.
Print Assumptions C53_ale_default_partial.
Theorem C53_rhale_default_partial : forall c jac E f cv, c_kind c = KRHALE jac -> (f < dim (c_data c))%nat ->
  (f < length (c_mins c))%nat -> (f < length (c_maxs c))%nat -> (c_mins c)@f < (c_maxs c)@f ->
  length E = length (rows (c_data c)) ->
  (exists u v, In u (values_in_range c f) /\ In v (values_in_range c f) /\ u <> v) -> (100 < length (values_in_range c f))%nat ->
  prep_centering cv <> Raise AssertionError ->
  snd (fit c (fresh (Some E)) [f] (MStr "greedy") cv) = Ok tt.
Proof.
  intros c jac E f cv K Hf L1 L2 LH LE (u & v & Hu & Hv & N) H100 Hcv. rewrite <- values_in_range_eq in *.
  assert (U2 : (2 <= length (unique (fit_xs c f)))%nat).
  { apply unique_in in Hu, Hv. destruct (unique (fit_xs c f)) as [|a [|b t]]; simpl in *; [contradiction| |lia]. destruct Hu as [->|[]], Hv as [->|[]]. congruence. }
  assert (DM : MStr "greedy" = default_method c) by (unfold default_method; now rewrite K). rewrite DM.
  destruct (rhale_default_succeeds c f Hf L1 L2 LH E LE U2 H100) as (p & P).
  unfold fit. rewrite default_allowed.
  destruct (prep_cent cv) as [ce|e] eqn:PC.
  2:{ exfalso. apply Hcv. unfold prep_cent in PC. destruct cv as [[|]|s| | |]; try discriminate; try reflexivity. simpl in PC |- *.
      destruct (String.eqb s "zero_start" || String.eqb s "zero_integral")%bool; [|reflexivity]. simpl in PC. destruct (String.eqb s "zero_start"); discriminate. }
  assert (FF : fit_feature c (fresh (Some E)) f (default_method c) = (set_eff (fresh (Some E)) E, Ok p)).
  { unfold fit_feature, default_method. rewrite K. cbn [st_eff fresh]. now rewrite P. }
  destruct (fit_one_succeeds c (fresh (Some E)) f (default_method c) ce _ p (default_bins_pos c) LH FF) as (st' & Es). simpl. rewrite Es. reflexivity.
Qed.
Print Assumptions C53_rhale_default_partial.
Example C53_instance : snd (fit (ex53 40) (fresh None) [0%nat] (MStr "fixed") (PyBool true)) = Ok tt /\ (20 < length (values_in_range (ex53 40) 0))%nat.
Proof. split; [vm_compute; reflexivity|vm_compute; repeat constructor]. Qed.

(** * C17 / C18 at the level of fit *)
(** Impossible binning: RHALE.fit with Greedy or DynamicProgramming fails with AssertionError. *)
Theorem C17_rhale_fit_assertion : forall c jac E f m n mp d cl cv, c_kind c = KRHALE jac -> (f < dim (c_data c))%nat ->
  (f < length (c_mins c))%nat -> (f < length (c_maxs c))%nat -> length E = length (rows (c_data c)) ->
  (m = MGreedy n (Some mp) d cl \/ m = MDP n (Some mp) d cl) ->
  constant (values_in_range c f) \/ (length (values_in_range c f) < mp)%nat ->
  prep_centering cv <> Raise AssertionError ->
  snd (fit c (fresh (Some E)) [f] m cv) = Raise AssertionError.
Proof.
  intros c jac E f m n mp d cl cv K Hf L1 L2 LE Mm Imp Hcv. rewrite <- values_in_range_eq in Imp.
  assert (He : exists e, kept_effects c (lo_of c f) (hi_of c f) f E = Ok e) by (unfold kept_effects; rewrite LE, Nat.eqb_refl; eauto).
  destruct He as (e & He).
  set (b := mkB (fit_xs c f) (col e f) (lo_of c f) (hi_of c f)).
  assert (F : find_limits (kept c (lo_of c f) (hi_of c f) f) (Some e) f (c_mins c, c_maxs c) m = Ok LFalse).
  { destruct (greedy_dp_impossible b mp n d cl Imp) as (G1 & G2). unfold find_limits. destruct Mm as [->| ->]; rewrite (kept_binner c f Hf L1 L2); [exact G1|exact G2]. }
  assert (FF : rhale_fit_feature c E f m = Raise AssertionError).
  { unfold rhale_fit_feature. unfold getcol. destruct (Nat.ltb_spec f (dim (c_data c))); [|lia]. unfold bind at 1.
    rewrite (getn_ok _ _ 0) by exact L1. unfold bind at 1. rewrite (getn_ok _ _ 0) by exact L2. unfold bind at 1. cbv zeta.
    fold (lo_of c f) (hi_of c f). rewrite He. unfold bind at 1. rewrite F. reflexivity. }
  unfold fit. assert (MA : method_allowed c m = true) by (unfold method_allowed; rewrite K; destruct Mm as [->| ->]; reflexivity). rewrite MA.
  destruct (prep_cent cv) as [ce|e'] eqn:PC.
  2:{ exfalso. apply Hcv. unfold prep_cent in PC. destruct cv as [[|]|s| | |]; try discriminate; try reflexivity. simpl in PC |- *.
      destruct (String.eqb s "zero_start" || String.eqb s "zero_integral")%bool; [|reflexivity]. simpl in PC. destruct (String.eqb s "zero_start"); discriminate. }
  simpl. unfold fit_one, fit_feature. rewrite K. cbn [st_eff fresh]. rewrite FF. reflexivity.
Qed.
Print Assumptions C17_rhale_fit_assertion.
Definition ex17 := mkCfg (KRHALE None) (mkData Float64 1 [qs [2]; qs [2]; qs [2]]) (map (fun r => r@0)) (qs [2]) (qs [2]).
Example C17_fit_instance : constant (values_in_range ex17 0) /\ snd (fit ex17 (fresh (Some [qs [1]; qs [1]; qs [1]])) [0%nat] Greedy_default (PyBool true)) = Raise AssertionError.
Proof. split; [|vm_compute; reflexivity]. exists (Q2Qc 2). split; [discriminate|]. intros x Hx. vm_compute in Hx. destruct Hx as [<-|[<-|[<-|[]]]]; apply Qc_is_canon; reflexivity. Qed.

(** RHALE.fit rejects the string "dp" that find_limits accepts, and accepts "dynamic", which find_limits then rejects: no
    string selects dynamic programming. *)
Theorem C18_rhale_dp_string_refuted : forall c jac st feats cv, c_kind c = KRHALE jac ->
  snd (fit c st feats (MStr "dp") cv) = Raise AssertionError.
Proof. intros c jac st feats cv K. unfold fit, method_allowed. rewrite K. reflexivity. Qed.
Print Assumptions C18_rhale_dp_string_refuted.
Theorem C18_rhale_dynamic_string : forall c jac st f fs cv u, c_kind c = KRHALE jac ->
  snd (fit c st (f :: fs) (MStr "dynamic") cv) <> Ok u.
Proof.
  intros c jac st f fs cv u K. unfold fit. destruct (method_allowed c (MStr "dynamic")); [|discriminate].
  destruct (prep_cent cv) as [ce|]; [|discriminate]. cbn [fit_loop].
  assert (Q : forall p, snd (fit_feature c st f (MStr "dynamic")) <> Ok p).
  { intros p. unfold fit_feature. rewrite K. destruct (match st_eff st with Some e => Ok e | None => compile c jac end) as [E|]; [|discriminate].
    cbn [snd]. unfold rhale_fit_feature. intros H. apply bind_ok in H as (? & _ & H). apply bind_ok in H as (? & _ & H). apply bind_ok in H as (? & _ & H).
    cbv zeta in H. apply bind_ok in H as (? & _ & H). apply bind_ok in H as (r & Hr & H). discriminate. }
  unfold fit_one. destruct (fit_feature c st f (MStr "dynamic")) as [st1 [p|e]]; [|discriminate]. exfalso. now apply (Q p).
Qed.
Print Assumptions C18_rhale_dynamic_string.

(** * C35  the constructors keep data and effects aligned *)
Theorem C35_construct_aligned : forall choice k X model nof al E c st, construct choice k X model nof al E = Ok (c, st) ->
  exists n idx, prep_nof_instances choice nof (length (rows X)) = Ok (n, idx) /\
    select_rows (rows X) idx = Ok (rows (c_data c)) /\ dim (c_data c) = dim X /\ dt (c_data c) = dt X /\
    (forall jac e, k = KRHALE jac -> E = Some e -> exists e', select_rows e idx = Ok e' /\ st = fresh (Some e')) /\
    (k = KALE \/ E = None -> st = fresh None).
Proof.
  intros choice k X model nof al E c st H. unfold construct in H. apply bind_ok in H as ([n idx] & H1 & H). apply bind_ok in H as (rs & H2 & H).
  apply bind_ok in H as (es & H3 & H). cbv zeta in H. apply bind_ok in H as ([mins maxs] & H4 & H). injection H as <- <-. exists n, idx.
  split; [exact H1|]. split; [exact H2|]. split; [reflexivity|]. split; [reflexivity|]. split.
  - intros jac e -> ->. unfold rmap in H3. apply bind_ok in H3 as (e' & H3 & Q). injection Q as <-. exists e'. split; [exact H3|reflexivity].
  - intros [->| ->]; [|destruct k]; injection H3 as <-; reflexivity.
Qed.
Print Assumptions C35_construct_aligned.
