(** Properties C50, C65, C66: what the plot methods of the global classes draw (visualization.py). [rescale], [stretch],
    [sqrt_at] and [is_band] are in PlotSpec.v. [aplot], [pplot] and [splot] return the numbers handed to matplotlib. A
    scaling is (mean, std); [run c rt (fresh E) ks] is the object after the calls [ks]. *)
From Verif Require Import Base Numpy Spec NumpyFacts Utils AccProofs Helpers HelpersProofs Integrate Binning GlobalALE ALEState GlobalPDP PDPFacts PartSpec GlobalShap ShapProofs PlotSpec Vis VisProofs Prop_Helpers Prop_Shap.
Open Scope Qc_scope.
Open Scope list_scope.

Lemma curve_points_1000 : Z.of_nat curve_points = 1000%Z.
Proof. reflexivity. Qed.
Local Opaque curve_points.

(** * C65  A plot shows what eval returns *)
(** ALE and RHALE: the curve is eval at 1000 points, on the scaled axes; and so is the line of the average output. *)
Theorem C65_ale : forall c E rt ks f het cv sx sy sh avg st' fig,
  aplot c rt (run c rt (fresh E) ks) f het cv sx sy sh avg = (st', Ok fig) ->
  exists a b ys hs, let grid := linspace a b curve_points in
    eval c rt (run c rt (fresh E) ks) f grid true cv = (st', Ok (ys, hs)) /\
    af_x fig = map (rescale sx) grid /\ af_y fig = map (rescale sy) ys /\
    af_avg fig = (if sh then Some (Some (rescale sy avg)) else None).
Proof.
  intros c E rt ks f het cv sx sy sh avg st' fig H. assert (I : inv c (run c rt (fresh E) ks)) by (apply run_inv, inv_fresh).
  destruct (aplot_spec _ _ _ _ _ _ _ _ _ _ _ _ I H) as (h & ce & p & nc & ys & hs & _ & _ & _ & _ & H1 & _ & H2 & H3 & H4 & _).
  exists ((ap_limits p)@0), ((ap_limits p)@(length (ap_limits p) - 1)), ys, (Some hs). cbv zeta. split; [exact H1|]. split; [exact H2|]. split; [exact H3|].
  rewrite H4. apply avg_rescale.
Qed.
Print Assumptions C65_ale.
(** PDP and d-PDP, in any state of the object. *)
Theorem C65_pdp : forall c rt choice st f het cv np sx sy ni sh avg vec st' fig,
  pplot c rt choice st f het cv np sx sy ni sh avg vec = (st', Ok fig) ->
  exists n ys, let grid := linspace (p_mins c)@f (p_maxs c)@f n in
    pts_of np = Ok n /\ peval c rt st f grid false cv false vec = (st', Ok (OMean (map Some ys))) /\
    pf_x fig = map (rescale sx) grid /\ pf_y fig = map (rescale sy) ys /\
    pf_avg fig = (if sh then Some (Some (rescale sy avg)) else None).
Proof.
  intros until 1. destruct (pplot_spec _ _ _ _ _ _ _ _ _ _ _ _ _ _ _ _ H) as (h & n & yy & ys & ws & _ & H1 & _ & H2 & H3 & _ & H4 & H5 & H6 & _).
  exists n, ys. cbv zeta. split; [exact H1|]. split; [|split; [exact H4|split; [exact H5|rewrite H6; apply avg_rescale]]].
  rewrite <- H3. now apply (peval_all c rt st f _ false cv vec st' yy).
Qed.
Print Assumptions C65_pdp.
(** The ICE curves: those of distinct instances (of all of them with nof_ice="all"), scaled like the PDP. *)
Theorem C65_ice : forall c rt choice st f cv np sx sy ni sh avg vec st' fig, choice_without_replacement choice ->
  pplot c rt choice st f (PyStr "ice") cv np sx sy ni sh avg vec = (st', Ok fig) ->
  exists n yy cols, let grid := linspace (p_mins c)@f (p_maxs c)@f n in let N := width (length (rows (ps_data st'))) yy in
    pts_of np = Ok n /\ peval c rt st f grid false cv true vec = (st', Ok (OAll yy)) /\
    NoDup cols /\ (forall i, In i cols -> (i < N)%nat) /\ (ni = PyStr "all" -> cols = seq 0 N) /\
    (forall z, ni = PyInt z -> length cols = Nat.min (Z.to_nat z) N) /\
    pf_ice fig = Some (map (fun row => map (fun i => rescale sy row@i) cols) yy).
Proof.
  intros until 2. destruct (pplot_spec _ _ _ _ _ _ _ _ _ _ _ _ _ _ _ _ H0) as (h & n & yy & ys & ws & H1 & H2 & LY & H3 & H4 & _ & _ & _ & _ & _ & _ & _ & H5 & _).
  injection H1 as <-. destruct (H5 eq_refl) as (cols & sel & nof & C1 & C2 & C3 & C4 & C5).
  exists n, yy, cols. cbv zeta. set (N := width _ yy) in *. split; [exact H2|]. split; [exact H3|].
  assert (G : NoDup cols /\ (forall i, In i cols -> (i < N)%nat) /\ (ni = PyStr "all" -> cols = seq 0 N) /\ (forall z, ni = PyInt z -> length cols = Nat.min (Z.to_nat z) N)).
  { unfold nof_ice_of in C1. destruct ni as [b|s|z| |]; try discriminate.
    - injection C1 as <-. unfold ice_columns in C2. set (z := if (Z.of_nat N <? (if b then 1 else 0))%Z then Z.of_nat N else (if b then 1 else 0)%Z) in *.
      destruct (Z.ltb_spec z 0) as [L|L]; [discriminate|]. injection C2 as <-. assert (LE : (Z.to_nat z <= N)%nat) by (unfold z in *; destruct (Z.ltb_spec (Z.of_nat N) (if b then 1 else 0)); destruct b; lia).
      destruct (H N (Z.to_nat z) LE) as (A1 & A2 & A3). repeat split; auto; discriminate.
    - destruct (String.eqb_spec s "all") as [->|]; [|discriminate]. injection C1 as <-. injection C2 as <-. split; [apply seq_NoDup|]. split; [intros i Hi; apply in_seq in Hi; lia|]. split; [reflexivity|discriminate].
    - injection C1 as <-. unfold ice_columns in C2. set (y := if (Z.of_nat N <? z)%Z then Z.of_nat N else z) in *.
      destruct (Z.ltb_spec y 0) as [L|L]; [discriminate|]. injection C2 as <-. assert (LE : (Z.to_nat y <= N)%nat /\ Z.to_nat y = Nat.min (Z.to_nat z) N) by (unfold y in *; destruct (Z.ltb_spec (Z.of_nat N) z); lia).
      destruct LE as [LE LM]. destruct (H N (Z.to_nat y) LE) as (A1 & A2 & A3). split; [exact A2|]. split; [exact A3|]. split; [discriminate|]. intros w Hw. injection Hw as <-. congruence. }
  destruct G as (G1 & G2 & G3 & G4). split; [exact G1|]. split; [exact G2|]. split; [exact G3|]. split; [exact G4|]. rewrite C5. f_equal.
  clear -C4. unfold take_cols in C4. revert sel C4. induction yy as [|r yy IH]; intros sel H; simpl in H; [now injection H as <-|].
  apply bind_ok in H as (a & H1 & H). apply bind_ok in H as (b & H2 & H). injection H as <-. simpl. f_equal; [|now apply IH].
  destruct (take_map_nth _ 0 _ _ H1) as [-> HI]. apply map_ext_in. intros i Hi. rewrite map_length in HI. now rewrite (nth_map_in _ _ _ 0) by auto.
Qed.
Print Assumptions C65_ice.
(** SHAP-DP, in any state of the object; with heterogeneity the band has the half-width eval returns. *)
Theorem C65_shap : forall c choice st f het cv np sx sy ns sh avg st' fig,
  splot c choice st f het cv np sx sy ns sh avg = (st', Ok fig) ->
  exists n ys ws, let grid := linspace (s_mins c)@f (s_maxs c)@f n in
    spts_of np = Ok n /\ seval c st f grid true cv = (st', Ok (ys, Some ws)) /\
    hf_x fig = map (rescale sx) grid /\ hf_y fig = map (rescale sy) ys /\
    hf_avg fig = (if sh then Some (Some (rescale sy avg)) else None) /\
    (het = PyBool true \/ het = PyStr "std" -> exists b, hf_band fig = Some b /\ is_band (map (rescale sy) ys) (map (fun w => stretch sy * w) ws) b) /\
    (het = PyBool false -> hf_band fig = None /\ hf_points fig = None).
Proof.
  intros until 1. destruct (splot_spec _ _ _ _ _ _ _ _ _ _ _ _ _ _ H) as (h & n & v & ys & H1 & H2 & H3 & H4 & H5 & H6 & H7 & H8 & H9 & H10 & H11).
  destruct (seval_shape _ _ _ _ _ _ _ _ _ H4) as (v' & F1 & _ & _ & _ & F5 & _). rewrite H3 in F1. injection F1 as <-.
  exists n, ys, (map (f_std v) (linspace (s_mins c)@f (s_maxs c)@f n)). cbv zeta. split; [exact H2|]. split; [apply F5|]. split; [exact H5|]. split; [exact H6|]. split; [rewrite H7; apply avg_rescale|]. split.
  - intros D. rewrite map_map. apply H8. destruct D as [-> | ->]; simpl in H1; now injection H1 as <-.
  - intros ->. simpl in H1. injection H1 as <-. split; [apply H9; discriminate|]. destruct H11 as [H11 _]; [discriminate|exact H11].
Qed.
Print Assumptions C65_shap.

(** * C50  Scaled plots are consistent *)
(** ALE/RHALE with both scales or none: inside bar number k the drawn curve is a straight line whose slope is the
    height of the bar; the bars lie on the (rescaled) bins. [l] are the limits of the fitted bins. *)
Theorem C50_ale_slopes_partial : forall c E rt ks f het cv sx sy sh avg st' fig, (sx = None <-> sy = None) ->
  aplot c rt (run c rt (fresh E) ks) f het cv sx sy sh avg = (st', Ok fig) ->
  exists l, length (af_centers fig) = (length l - 1)%nat /\ length (af_widths fig) = (length l - 1)%nat /\
    (forall k, (S k < length l)%nat -> (af_centers fig)@k = (rescale sx l@k + rescale sx l@(S k)) / Q2Qc 2 /\ (af_widths fig)@k = rescale sx l@(S k) - rescale sx l@k) /\
    (increasing l -> (2 <= length l)%nat -> l@(length l - 1) <= Q2Qc 100000000 -> length (af_heights fig) = length (af_centers fig) ->
     forall k u v, (S k < length l)%nat -> l@k <= u <= l@(S k) -> l@k <= v <= l@(S k) ->
     exists a b hs, snd (eval c rt (run c rt (fresh E) ks) f [u; v] true cv) = Ok ([a; b], hs) /\
       rescale sy b - rescale sy a = (af_heights fig)@k * (rescale sx v - rescale sx u)).
Proof.
  intros c E rt ks f het cv sx sy sh avg st' fig SS H. assert (I : inv c (run c rt (fresh E) ks)) by (apply run_inv, inv_fresh).
  destruct (aplot_bars _ _ _ _ _ _ _ _ _ _ _ _ I H) as (l & H1 & H2 & H3). exists l.
  assert (L1 : length (af_centers fig) = (length l - 1)%nat) by (rewrite H1; apply (eq_trans (midpoints_length _)); now rewrite map_length).
  assert (L2 : length (af_widths fig) = (length l - 1)%nat) by (rewrite H2, diffs_length; now rewrite map_length).
  split; [exact L1|]. split; [exact L2|]. split.
  - intros k Hk. rewrite H1, H2. rewrite midpoints_nth, diffs_nth by (rewrite map_length; lia). rewrite !(nth_map_in _ _ _ 0) by lia. now split.
  - intros HI L B LH k u v Hk [U1 U2] [V1 V2]. apply (H3 HI L B (eq_trans LH L1) (proj2 SS) k u v Hk U1 U2 V1 V2).
Qed.
Print Assumptions C50_ale_slopes_partial.
(** Its error bars are stretched by |std_y / std_x|, compared with the unscaled plot of the same object. *)
Theorem C50_ale_error_bars : forall c E rt ks f het cv mx dx my dy sh avg st0 st1 fig0 fig,
  let st := run c rt (fresh E) ks in
  aplot c rt st f het cv None None sh avg = (st0, Ok fig0) ->
  aplot c rt st f het cv (Some (mx, dx)) (Some (my, dy)) sh avg = (st1, Ok fig) ->
  (af_yerr fig0 = None /\ af_yerr fig = None) \/
  exists vars e0 e, af_yerr fig0 = Some e0 /\ af_yerr fig = Some e /\ length e0 = length vars /\ length e = length vars /\
    forall k, (k < length vars)%nat -> sqrt_at rt vars@k -> sqrt_at rt (vars@k * ((dy / dx) * (dy / dx))) ->
      e0@k * e0@k = vars@k /\ e@k = Qcabs (dy / dx) * e0@k.
Proof.
  intros c E rt ks f het cv mx dx my dy sh avg st0 st1 fig0 fig st H0 H. assert (I : inv c st) by (apply run_inv, inv_fresh).
  destruct (aplot_spec _ _ _ _ _ _ _ _ _ _ _ _ I H0) as (h & ce & p & nc & ys & hs & A1 & A2 & A3 & _ & A5 & _ & _ & _ & _ & _ & _ & _ & v0 & B0 & Y0).
  destruct (aplot_spec _ _ _ _ _ _ _ _ _ _ _ _ I H) as (h' & ce' & p' & nc' & ys' & hs' & A1' & A2' & A3' & _ & A5' & _ & _ & _ & _ & _ & _ & _ & v1 & B1 & Y1).
  rewrite A1 in A1'. injection A1' as <-.
  assert (EP : p' = p).
  { pose proof (eval_state_same _ _ _ _ _ _ _ _ _ _ _ _ _ A5 A5') as EQ. rewrite EQ in A3. rewrite A3 in A3'. now injection A3' as <- <-. }
  subst p'. simpl in B0. injection B0 as <-. apply bin_opt_spec in B1 as [L1 (a & EA & NZ & ->)]. injection EA as <-. simpl in *.
  assert (D : (h = PyBool false) \/ h <> PyBool false) by (destruct h as [[]| | | |]; auto; right; discriminate).
  destruct D as [-> | D]; [left; now rewrite Y0, Y1|]. right. exists (ap_var p), (map rt (ap_var p)), (map rt (map (fun v => v * ((dy / dx) * (dy / dx))) (ap_var p))).
  split; [rewrite Y0; destruct h as [[]| | | |]; congruence|]. split; [rewrite Y1; destruct h as [[]| | | |]; congruence|]. rewrite !map_length. split; [reflexivity|]. split; [reflexivity|].
  intros k Hk S1 S2. rewrite map_map, !(nth_map_in _ _ _ 0) by assumption. split; [apply S1|]. now apply sqrt_scaled.
Qed.
Print Assumptions C50_ale_error_bars.
(** PDP with heterogeneity="std": the band has |std_y| times the half-width that eval returns. *)
Theorem C50_pdp_band : forall c rt choice st f het cv np sx sy ni sh avg vec st' fig, het = PyBool true \/ het = PyStr "std" ->
  pplot c rt choice st f het cv np sx sy ni sh avg vec = (st', Ok fig) ->
  exists n yy ys ws sd b, let grid := linspace (p_mins c)@f (p_maxs c)@f n in
    peval c rt st f grid false cv true vec = (st', Ok (OAll yy)) /\
    peval c rt st f grid true cv false vec = (st', Ok (OMeanStd (map Some ys) (map Some ws))) /\
    pf_band fig = Some b /\ is_band (map (rescale sy) ys) sd b /\ length sd = length ys /\ length yy = length ys /\
    forall k, (k < length ys)%nat -> let row := nth k yy [] in
      sqrt_at rt (variance row) -> sqrt_at rt (variance row * (stretch sy * stretch sy)) -> sd@k = Qcabs (stretch sy) * ws@k.
Proof.
  intros until 2. rename H into HH, H0 into H. destruct (pplot_spec _ _ _ _ _ _ _ _ _ _ _ _ _ _ _ _ H) as (h & n & yy & ys & ws & H1 & H2 & LY & H3 & H4 & H5 & _ & _ & _ & H6 & _).
  assert (EH : h = PyStr "std") by (destruct HH as [-> | ->]; simpl in H1; now injection H1 as <-). destruct (H6 EH) as (sd & b & F1 & F2 & F3).
  exists n, yy, ys, ws, sd, b. cbv zeta. split; [exact H3|]. split; [rewrite <- H4, <- H5; now apply (peval_all c rt st f _ false cv vec st' yy)|].
  split; [exact F2|]. split; [exact F3|].
  assert (LS : length sd = length ys) by (apply (f_equal (@length _)) in F1; unfold row_stds in F1; rewrite !map_length in F1; congruence).
  split; [exact LS|]. split; [exact LY|]. intros k Hk S1 S2. set (row := nth k yy []) in *.
  assert (W : option_map rt (np_var row) = Some ws@k).
  { unfold row_stds in H5. apply (f_equal (fun l => nth k l None)) in H5. rewrite (nth_map_in _ _ _ []) in H5 by congruence. fold row in H5. rewrite H5.
    assert (LW : (k < length ws)%nat) by (destruct (Nat.lt_ge_cases k (length ws)) as [L|L]; [exact L|rewrite nth_overflow in H5 by (rewrite map_length; exact L); exfalso; destruct (np_var row) eqn:NV; [discriminate|]; unfold row in NV, H5; clear -H4 NV Hk LY; unfold row_means in H4; apply (f_equal (fun l => nth k l None)) in H4; rewrite (nth_map_in _ _ _ []) in H4 by congruence; rewrite (nth_map_in _ _ _ 0) in H4 by assumption; destruct (nth k yy []); discriminate]).
    now rewrite (nth_map_in _ _ _ 0). }
  assert (NE : row <> []) by (intros EQ; rewrite EQ in W; discriminate).
  rewrite np_var_some in W by assumption. simpl in W. injection W as W.
  unfold row_stds in F1. apply (f_equal (fun l => nth k l None)) in F1. rewrite map_map in F1. rewrite (nth_map_in _ _ _ []) in F1 by congruence. fold row in F1.
  rewrite np_var_some in F1 by (destruct row; [congruence|discriminate]). rewrite (nth_map_in _ _ _ 0) in F1 by congruence. simpl in F1. injection F1 as F1.
  rewrite <- F1, <- W. rewrite variance_rescale by assumption. now apply sqrt_scaled.
Qed.
Print Assumptions C50_pdp_band.
(** Refuted: scale_y without scale_x is a TypeError. *)
Theorem C50_scale_y_alone_refuted : forall c E rt ks f het cv my dy sh avg st' fig,
  let st := run c rt (fresh E) ks in
  aplot c rt st f het cv None None sh avg = (st', Ok fig) -> aplot c rt st f het cv None (Some (my, dy)) sh avg = (st', Raise TypeError).
Proof.
  intros c E rt ks f het cv my dy sh avg st' fig st H. unfold aplot in *.
  destruct (prep_confidence_interval het) as [h|]; [|discriminate]. cbn [bind] in *. destruct (prep_centering cv) as [ce|]; [|discriminate]. cbn [bind] in *.
  destruct (getn (c_mins c) f) as [lo|]; [|discriminate]. cbn [bind] in *. destruct (eval c rt st f [lo] false ce) as [st1 [r1|e]]; [|discriminate].
  destruct (st_fe st1 f) as [[p nc]|]; [|discriminate]. unfold ale_plot in *. destruct (getn (ap_limits p) 0) as [a|]; [|discriminate]. cbn [bind] in *.
  destruct (getn (ap_limits p) (length (ap_limits p) - 1)) as [b|]; [|discriminate]. cbn [bind] in *.
  destruct (eval c rt st1 f (linspace a b curve_points) true ce) as [st2 [[y hh]|e]]; cbn [bind] in *; [|discriminate]. apply (f_equal fst) in H as H'. cbn [fst] in H'. subst st2. reflexivity.
Qed.
Print Assumptions C50_scale_y_alone_refuted.
(** Refuted: with scale_x alone the bars keep their unscaled heights, although the curve is stretched horizontally. *)
Theorem C50_scale_x_alone_refuted : forall c E rt ks f het cv mx dx sh avg st0 st1 fig0 fig,
  let st := run c rt (fresh E) ks in
  aplot c rt st f het cv None None sh avg = (st0, Ok fig0) -> aplot c rt st f het cv (Some (mx, dx)) None sh avg = (st1, Ok fig) ->
  af_heights fig = af_heights fig0 /\ af_x fig = map (fun v => mx + dx * v) (af_x fig0) /\ af_y fig = af_y fig0.
Proof.
  intros c E rt ks f het cv mx dx sh avg st0 st1 fig0 fig st H0 H. assert (I : inv c st) by (apply run_inv, inv_fresh).
  destruct (aplot_spec _ _ _ _ _ _ _ _ _ _ _ _ I H0) as (h & ce & p & nc & ys & hs & A1 & A2 & A3 & _ & A5 & _ & X0 & Y0 & _ & _ & _ & E0 & _).
  destruct (aplot_spec _ _ _ _ _ _ _ _ _ _ _ _ I H) as (h' & ce' & p' & nc' & ys' & hs' & A1' & A2' & A3' & _ & A5' & _ & X1 & Y1 & _ & _ & _ & E1 & _).
  assert (EP : p' = p).
  { pose proof (eval_state_same _ _ _ _ _ _ _ _ _ _ _ _ _ A5 A5') as EQ. rewrite EQ in A3. rewrite A3 in A3'. now injection A3' as <- <-. }
  subst p'. simpl in E0, E1. injection E0 as E0. injection E1 as E1. split; [congruence|]. split; [rewrite X0, X1, map_map; reflexivity|].
  rewrite A5 in A5'. injection A5' as _ <- _. now rewrite Y0, Y1.
Qed.
Print Assumptions C50_scale_x_alone_refuted.
(** A case: y = x^2 (RHALE, values 0, 0, 1, 1, 3, 3); scale_x multiplies by 2, so the drawn slopes are half the bars. *)
Definition ex50 := mkCfg (KRHALE None) (mkData Float64 1 [qs [0]; qs [0]; qs [1]; qs [1]; qs [3]; qs [3]]) (map (fun r => r@0 * r@0)) (qs [0]) (qs [3]).
Definition ex50_st := fresh (Some [qs [0]; qs [2]; qs [2]; qs [4]; qs [6]; qs [8]]).
Definition bars_of (r : res ale_figure) := rmap (fun g => (show (af_centers g), show (af_heights g), show (af_widths g), option_map show (af_yerr g))) r.
Definition curve_of (r : res ale_figure) := rmap (fun g => (length (af_x g), show [(af_x g)@0; (af_x g)@999], show [(af_y g)@0; (af_y g)@999], option_map (option_map this) (af_avg g))) r.
Example C50_scale_x_instance :
  bars_of (snd (aplot ex50 (fun v => v) ex50_st 0 (PyBool true) (PyBool false) (Some (0, Q2Qc 2)) None false 0)) =
    Ok ([0; 5 # 2; 6], [1; 3; 7], [2; 3; 4], Some [1; 1; 1])%Q /\
  rmap (fun p => show (fst p)) (snd (eval ex50 (fun v => v) ex50_st 0 [Q2Qc (1#2); Q2Qc 2] true (PyBool false))) = Ok [1; 11 # 2]%Q.
(* the bar over [1/2, 2] is drawn over [1, 4] with height 3, the curve rises there by 9/2 over a width of 3 *)
Proof. split; vm_compute; reflexivity. Qed.
(** An instance of C50_ale_slopes_partial, C50_ale_error_bars and C65_ale: both scales. The drawn curve has 1000 points. *)
Example C50_instance :
  let r0 := snd (aplot ex50 (fun v => v) ex50_st 0 (PyBool true) (PyBool false) None None true (Q2Qc 5)) in
  let r := snd (aplot ex50 (fun v => v) ex50_st 0 (PyBool true) (PyBool false) (Some (Q2Qc 10, Q2Qc 2)) (Some (Q2Qc 100, Q2Qc (-2))) true (Q2Qc 5)) in
  bars_of r0 = Ok ([0; 5 # 4; 3], [1; 3; 7], [1; 3 # 2; 2], Some [1; 1; 1])%Q /\
  bars_of r = Ok ([10; 25 # 2; 16], [-1; -3; -7], [2; 3; 4], Some [1; 1; 1])%Q /\
  curve_of r0 = Ok (1000%nat, [-1 # 2; 4], [0; 39 # 2], Some (Some 5))%Q /\
  curve_of r = Ok (1000%nat, [9; 18], [100; 61], Some (Some 90))%Q.
Proof. split; [|split; [|split]]; vm_compute; reflexivity. Qed.
(** Refuted: the "std_err" band of a PDP is the standard deviation that eval returns, not the standard error. *)
Theorem C50_std_err_refuted : forall c rt choice st f cv np sx sy ni sh avg vec st' fig,
  pplot c rt choice st f (PyStr "std_err") cv np sx sy ni sh avg vec = (st', Ok fig) ->
  exists n ys ws b, let grid := linspace (p_mins c)@f (p_maxs c)@f n in
    peval c rt st f grid true cv false vec = (st', Ok (OMeanStd (map Some ys) (map Some ws))) /\
    pf_band fig = Some b /\ is_band (map (rescale sy) ys) (map (fun w => stretch sy * w) ws) b.
Proof.
  intros until 1. destruct (pplot_spec _ _ _ _ _ _ _ _ _ _ _ _ _ _ _ _ H) as (h & n & yy & ys & ws & H1 & H2 & LY & H3 & H4 & H5 & _ & _ & _ & _ & H6 & _).
  simpl in H1. injection H1 as <-. destruct (H6 eq_refl) as (b & F1 & F2). exists n, ys, ws, b. cbv zeta. split; [|split; [exact F1|exact F2]].
  rewrite <- H4, <- H5. now apply (peval_all c rt st f _ false cv vec st' yy).
Qed.
Print Assumptions C50_std_err_refuted.
Definition ex50p (k : pkind) := mkPC k (map (fun r => Q2Qc 3 * r@0 + r@1)) (qs [0; 0]) (qs [2; 2]).
Definition ex50X := mkData Float64 2 [qs [0; 0]; qs [1; 0]; qs [1; 2]; qs [2; 2]].
Definition pdp_of (r : res pdp_figure) := rmap (fun g => (show (pf_x g), show (pf_y g), option_map (fun b => (show (fst b), show (snd b))) (pf_band g), option_map (map show) (pf_ice g))) r.
(** Four instances: the std is 1, the standard error 1/2; the "std_err" band is the "std" band. *)
Example C50_std_err_instance : forall het, het = PyStr "std" \/ het = PyStr "std_err" ->
  pdp_of (snd (pplot (ex50p KPDP) (fun v => v) (fun _ n => seq 0 n) (pfresh ex50X) 0 het (PyBool false) (PyInt 3) None None (PyStr "all") false 0 true)) =
    Ok ([0; 1; 2], [1; 4; 7], Some ([0; 3; 6], [2; 5; 8]), None)%Q.
Proof. intros het [-> | ->]; vm_compute; reflexivity. Qed.
Example C50_pdp_instance :
  pdp_of (snd (pplot (ex50p KPDP) (fun v => if v =? Q2Qc 4 then Q2Qc 2 else v) (fun _ n => seq 0 n) (pfresh ex50X) 0 (PyStr "std") (PyBool false) (PyInt 3) (Some (Q2Qc 1, Q2Qc 3)) (Some (Q2Qc 10, Q2Qc (-2))) (PyStr "all") false 0 true)) =
    Ok ([1; 4; 7], [8; 2; -4], Some ([6; 0; -6], [10; 4; -2]), None)%Q /\
  pdp_of (snd (pplot (ex50p KPDP) (fun v => v) (fun _ n => seq 1 n) (pfresh ex50X) 0 (PyStr "ice") (PyBool false) (PyInt 3) None (Some (Q2Qc 10, Q2Qc 2)) (PyInt 2) false 0 true)) =
    Ok ([0; 1; 2], [12; 18; 24], None, Some [[10; 14]; [16; 20]; [22; 26]])%Q.
Proof. split; vm_compute; reflexivity. Qed.
(** Refuted: d-PDP plots add the mean of scale_y to the derivative. The model has slope 3 everywhere; with
    scale_y = {mean 10, std 2} the slope is 6, drawn is 16. *)
Theorem C50_derivative_refuted :
  pdp_of (snd (pplot (ex50p (KDer None)) (fun v => v) (fun _ n => seq 0 n) (pfresh ex50X) 0 (PyBool false) (PyBool false) (PyInt 3) None None (PyStr "all") false 0 true)) =
    Ok ([0; 1; 2], [3; 3; 3], None, None)%Q /\
  pdp_of (snd (pplot (ex50p (KDer None)) (fun v => v) (fun _ n => seq 0 n) (pfresh ex50X) 0 (PyBool false) (PyBool false) (PyInt 3) None (Some (Q2Qc 10, Q2Qc 2)) (PyStr "all") false 0 true)) =
    Ok ([0; 1; 2], [16; 16; 16], None, None)%Q.
Proof. split; vm_compute; reflexivity. Qed.
Print Assumptions C50_derivative_refuted.
(** Refuted: a SHAP plot with a scaling fails unless heterogeneity="shap_values". *)
Theorem C50_shap_scaled_refuted : forall c choice st f het cv np sx sy ns sh avg st' fig, het <> PyStr "shap_values" ->
  splot c choice st f het cv np None None ns sh avg = (st', Ok fig) -> sx <> None \/ sy <> None ->
  splot c choice st f het cv np sx sy ns sh avg = (st', Raise TypeError).
Proof.
  intros c choice st f het cv np sx sy ns sh avg st' fig NS H NN. unfold splot in *.
  destruct (prep_confidence_interval het) as [h|] eqn:PH; [|discriminate]. cbn [bind] in *. destruct (getn (s_mins c) f) as [lo|]; [|discriminate]. cbn [bind] in *.
  destruct (getn (s_maxs c) f) as [hi|]; [|discriminate]. cbn [bind] in *. destruct (spts_of np) as [n|]; [|discriminate]. cbn [bind] in *.
  destruct (seval c st f (linspace lo hi n) false cv) as [st1 [[y hh]|e]]; [|discriminate]. destruct (ss_fe st1 f) as [v|]; [|discriminate].
  destruct (prep_nof_instances choice ns (length (rows (ss_data st1)))) as [[k ind]|]; [|discriminate]. cbn [bind] in *.
  apply (f_equal fst) in H as H'. cbn [fst] in H'. subst st1. clear H. f_equal.
  assert (HS : h <> PyStr "shap_values").
  { intros ->. apply NS. destruct het as [[]|s| | |]; simpl in PH; try discriminate. destruct (_ || _)%bool; [|discriminate]. congruence. }
  assert (PN : forall A (a b : A), match h with PyStr s => if String.eqb s "shap_values" then a else b | _ => b end = b).
  { intros A a b. destruct h as [|s| | |]; try reflexivity. destruct (String.eqb_spec s "shap_values"); congruence. }
  rewrite PN. cbn [bind]. unfold plot_shap. destruct sx as [a|]; [reflexivity|]. destruct sy as [b|]; [reflexivity|]. destruct NN; congruence.
Qed.
Print Assumptions C50_shap_scaled_refuted.

(** * C66  The SHAP values drawn in a SHAP dependence plot *)
(** heterogeneity="shap_values", after any history: the drawn points are (value, shap value) pairs of distinct
    instances among those the curve was fitted to, moved and scaled like the curve. *)
Theorem C66_points : forall c X choice ks f cv ce np sx sy ns sh avg st' fig, sorts (s_argsort c) -> choice_without_replacement choice -> prep_cent cv = Ok ce ->
  splot c choice (srun c (sfresh X) ks) f (PyStr "shap_values") cv np sx sy ns sh avg = (st', Ok fig) ->
  exists T pairs m s z n ind, In f T /\ (forall t, In t T -> t = f \/ exists q, In q ks /\ stouches t q) /\
    shap_fit (s_explain c) (s_spline c) (rows_inside (s_mins c) (s_maxs c) T (rows X)) f pairs m s /\ spts_of np = Ok n /\
    hf_x fig = map (rescale sx) (linspace (s_mins c)@f (s_maxs c)@f n) /\
    hf_y fig = map (fun x => rescale sy (m x - z)) (linspace (s_mins c)@f (s_maxs c)@f n) /\
    NoDup ind /\ (forall i, In i ind -> (i < length pairs)%nat) /\
    hf_points fig = Some (map (fun i => rescale sx (fst (nth i pairs (0, 0)))) ind, map (fun i => rescale sy (snd (nth i pairs (0, 0)) - z)) ind) /\
    match ce with NoCent => z = 0 | _ => exists q, spoints ks f q /\ shap_shift m (map fst pairs) ce q z end.
Proof.
  intros c X choice ks f cv ce np sx sy ns sh avg st' fig SO CH EC H.
  destruct (splot_spec _ _ _ _ _ _ _ _ _ _ _ _ _ _ H) as (_ & n0 & _ & _ & _ & N0 & _ & _ & HX & _).
  destruct (splot_history _ _ _ _ _ _ _ _ _ _ _ _ _ _ _ SO EC H) as (T & pairs & m & s & z & n & k & ind & pts & H1 & H2 & H3 & H4 & H5 & H6 & H7 & H8 & H9).
  rewrite H4 in N0. injection N0 as <-.
  exists T, pairs, m, s, z, n, ind. split; [exact H1|]. split; [exact H2|]. split; [exact H3|]. split; [exact H4|]. split; [exact HX|]. split; [exact H7|].
  destruct (take_map_nth _ (0, 0) _ _ H6) as [-> IB]. split.
  { unfold prep_nof_instances in H5. destruct ns as [|s0|z0| |]; try discriminate.
    - destruct (String.eqb s0 "all"); [|discriminate]. injection H5 as _ <-. apply seq_NoDup.
    - destruct (Z.ltb_spec z0 (Z.of_nat (length (rows (ss_data st'))))) as [L|L].
      + destruct (Z.ltb_spec z0 0); [discriminate|]. injection H5 as _ <-. apply CH. lia.
      + injection H5 as _ <-. apply seq_NoDup. }
  split; [exact IB|]. split; [rewrite H8, !map_map; reflexivity|exact H9].
Qed.
Print Assumptions C66_points.
(** With nof_shap_values="all", and axis limits that contain all the data: the pairs of all the instances. *)
Theorem C66_all_partial : forall c X choice ks f cv np sx sy sh avg st' fig, sorts (s_argsort c) -> all_inside (s_mins c) (s_maxs c) X ->
  splot c choice (srun c (sfresh X) ks) f (PyStr "shap_values") cv np sx sy (PyStr "all") sh avg = (st', Ok fig) ->
  exists V pairs z, s_explain c (rows X) = Ok V /\ Permutation pairs (combine (values (rows X) f) (values V f)) /\ length pairs = length (rows X) /\
    hf_points fig = Some (map (fun p => rescale sx (fst p)) pairs, map (fun p => rescale sy (snd p - z)) pairs).
Proof.
  intros c X choice ks f cv np sx sy sh avg st' fig SO IN H. destruct (splot_all _ _ _ _ _ _ _ _ _ _ _ _ _ SO IN H) as (pairs & m & s & z & n & (V & V1 & V2 & V3 & _) & _ & _ & HP).
  exists V, pairs, z. now repeat split.
Qed.
Print Assumptions C66_all_partial.
(** Refuted with user-given limits: evaluating feature 1 drops the instance [2; 9] from the object, and from then on
    "all" draws 4 of the 5 points of feature 0; the missing one is that of the largest value of feature 0. *)
Definition points_of (r : res shap_figure) := rmap (fun g => (show (hf_y g), option_map (fun b => (show (fst b), show (snd b))) (hf_points g))) r.
Theorem C66_refuted :
  let c := ex_obj [0; 0]%Z [4; 5]%Z in let ch := fun (_ n : nat) => seq 0 n in
  points_of (snd (splot c ch (srun c (sfresh ex_rows) [SEval 0 (qs [0]) false (PyBool false)]) 0 (PyStr "shap_values") (PyBool false) (PyInt 2) None None (PyStr "all") false 0)) =
    Ok ([4; 8], Some ([0; 1; 2; 3; 4], [-2; -1; 2; 7; 14]))%Q /\
  points_of (snd (splot c ch (srun c (sfresh ex_rows) [SEval 0 (qs [0]) false (PyBool false); SEval 1 (qs [0]) false (PyBool false)]) 0 (PyStr "shap_values") (PyBool false) (PyInt 2) None None (PyStr "all") false 0)) =
    Ok ([4; 8], Some ([0; 1; 2; 3], [-2; -1; 2; 7]))%Q.
Proof. split; vm_compute; reflexivity. Qed.
Print Assumptions C66_refuted.
Example C66_instance : all_inside (map qz [0; 0]%Z) (map qz [4; 9]%Z) ex_rows /\
  points_of (snd (splot (ex_obj [0; 0]%Z [4; 9]%Z) (fun _ n => seq 0 n) (sfresh ex_rows) 0 (PyStr "shap_values") (PyStr "zero_start") (PyInt 2) (Some (Q2Qc 1, Q2Qc 2)) (Some (0, Q2Qc 10)) (PyInt 2) false 0)) =
    Ok ([0; 40], Some ([1; 3], [-60; -50]))%Q.
Proof.
  split; [|vm_compute; reflexivity]. intros [|[|f]] r Hf Hr; [| |simpl in Hf; lia]; simpl in Hr;
    repeat (destruct Hr as [<-|Hr]; [split; apply Qcleb_le; vm_compute; reflexivity|]); destruct Hr.
Qed.
