(** VisProofs: lemmas about the plot methods of the global classes. *)
From Verif Require Import Base Numpy Spec NumpyFacts Utils UtilsProofs AccProofs Helpers HelpersProofs Integrate Binning GlobalALE ALEState GlobalPDP PartSpec GlobalShap ShapProofs PlotSpec Vis.
Open Scope Qc_scope.
Open Scope list_scope.
Local Opaque curve_points.

Lemma affine_rescale s v : affine_opt s v = rescale s v.
Proof. destruct s as [[m d]|]; simpl; [unfold trans_affine, sc_mean, sc_std; simpl; ring|reflexivity]. Qed.
Lemma scale_stretch s v : scale_opt s v = stretch s * v.
Proof. destruct s as [[m d]|]; simpl; [unfold trans_scale, sc_std; simpl; ring|ring]. Qed.
Lemma map_affine s l : map (affine_opt s) l = map (rescale s) l.
Proof. apply map_ext. intros. apply affine_rescale. Qed.
Lemma rescale_diff s a b : rescale s a - rescale s b = stretch s * (a - b).
Proof. destruct s as [[m d]|]; simpl; ring. Qed.

Lemma avg_rescale sh X avg sy : avg_line sh X avg sy = (if sh then Some (Some (rescale sy avg)) else None).
Proof. unfold avg_line. destruct sh; [|reflexivity]. destruct sy as [[m d]|]; simpl; [|reflexivity]. unfold sc_std, sc_mean. simpl. do 2 f_equal. ring. Qed.
(** ** Centering arguments *)
Lemma prep_twice cv ce : prep_centering cv = Ok ce -> prep_cent ce = prep_cent cv.
Proof.
  intros H. unfold prep_cent. rewrite H. destruct cv as [[]|s| | |]; simpl in H; try discriminate; try (injection H as <-; reflexivity).
  destruct (String.eqb s "zero_start" || String.eqb s "zero_integral")%bool eqn:E; [|discriminate]. injection H as <-. simpl. now rewrite E.
Qed.
Lemma eval_prep gc rt st f xs het cv ce : prep_centering cv = Ok ce -> eval gc rt st f xs het ce = eval gc rt st f xs het cv.
Proof. intros H. unfold eval, fit. now rewrite (prep_twice _ _ H). Qed.
Lemma peval_prep gc rt st f xs het cv ce al v : prep_centering cv = Ok ce -> peval gc rt st f xs het ce al v = peval gc rt st f xs het cv al v.
Proof. intros H. unfold peval, pfit. now rewrite (prep_twice _ _ H). Qed.
Lemma seval_prep gc st f xs het cv ce : prep_centering cv = Ok ce -> seval gc st f xs het ce = seval gc st f xs het cv.
Proof. intros H. unfold seval, sfit. now rewrite (prep_twice _ _ H). Qed.

(** ** ALE *)
Lemma eval_twice c rt st f xs h cv st1 r : eval c rt st f xs h cv = (st1, Ok r) ->
  forall zs h', eval c rt st1 f zs h' cv = eval c rt st f zs h' cv.
Proof.
  intros H zs h'. unfold eval in *. destruct (prep_cent cv) as [ce|e] eqn:PC; [|discriminate].
  destruct (refit c st f ce) as [[|]|e] eqn:R; [|injection H as <- _; now rewrite R|discriminate].
  destruct (fit c st [f] (default_method c) cv) as [st' [u|e]] eqn:F; [|discriminate]. injection H as <- _.
  assert (R' : refit c st' f ce = Ok false).
  { unfold fit in F. rewrite PC in F. destruct (method_allowed c (default_method c)); [|discriminate]. simpl in F.
    destruct (fit_one c st f (default_method c) ce) as [s2 [u2|e2]] eqn:E; [|discriminate]. injection F as -> _.
    apply fit_one_ok in E as (s3 & p & z & _ & _ & A & B & _). unfold refit in *. destruct (Nat.ltb f (dim (c_data c))); [|discriminate].
    rewrite B, A. destruct ce; reflexivity. }
  now rewrite R'.
Qed.
Lemma eval_state_same c rt st f xs ys h h' cv st1 st2 r1 r2 : eval c rt st f xs h cv = (st1, Ok r1) -> eval c rt st f ys h' cv = (st2, Ok r2) -> st1 = st2.
Proof.
  intros H1 H2. unfold eval in *. destruct (prep_cent cv) as [ce|e]; [|discriminate]. destruct (refit c st f ce) as [[|]|e]; [| |discriminate].
  - destruct (fit c st [f] (default_method c) cv) as [s [u|e]]; [|discriminate]. congruence.
  - congruence.
Qed.
Lemma midpoints_nth l k : (S k < length l)%nat -> (midpoints l)@k = (l@k + l@(S k)) / Q2Qc 2.
Proof.
  revert k. induction l as [|a [|b l] IH]; intros k H; simpl in H; try lia.
  assert (E : midpoints (a :: b :: l) = Q2Qc (1#2) * (a + b) :: midpoints (b :: l)) by reflexivity. rewrite E. destruct k as [|k].
  - simpl. replace (Q2Qc (1#2)) with (/ Q2Qc 2) by (apply Qc_is_canon; reflexivity). unfold Qcdiv. ring.
  - apply (IH k). simpl. lia.
Qed.
Lemma linspace_ends a b n : length (linspace a b n) = n.
Proof. unfold linspace. destruct n as [|[|n]]; try reflexivity. now rewrite map_length, seq_length. Qed.

Lemma bin_opt_spec sx sy sq l r : bin_opt sx sy sq l = Ok r ->
  length r = length l /\
  match sy with
  | None => r = l
  | Some b => exists a, sx = Some a /\ (l <> [] -> snd a <> 0) /\ r = map (fun v => if sq then v * ((snd b / snd a) * (snd b / snd a)) else v * snd b / snd a) l
  end.
Proof.
  unfold bin_opt. destruct sy as [b|]; [|intros H; injection H as <-; now split]. destruct sx as [a|]; [|discriminate]. intros H.
  split; [now apply mapM_length in H|]. exists a. split; [reflexivity|]. unfold trans_bin, sc_std in H. destruct (Qceqb_spec (snd a) 0) as [E|E].
  - destruct l as [|v l]; [simpl in H; injection H as <-; split; [congruence|reflexivity]|simpl in H; discriminate].
  - split; [auto|]. revert r H. induction l as [|v l IH]; intros r H; simpl in H; [now injection H as <-|].
    apply bind_ok in H as (r' & H2 & H). injection H as <-. simpl. f_equal. now apply IH.
Qed.

(** What an ALE plot draws. *)
Lemma aplot_spec c rt st f het cv sx sy sh avg st' fig : inv c st -> aplot c rt st f het cv sx sy sh avg = (st', Ok fig) ->
  exists h ce p nc ys hs, prep_confidence_interval het = Ok h /\ prep_centering cv = Ok ce /\ st_fe st' f = Some (p, nc) /\ from_fit p /\
    let grid := linspace (ap_limits p)@0 (ap_limits p)@(length (ap_limits p) - 1) curve_points in
    eval c rt st f grid true cv = (st', Ok (ys, Some hs)) /\ ap_limits p <> [] /\
    af_x fig = map (rescale sx) grid /\ af_y fig = map (rescale sy) ys /\ af_avg fig = avg_line sh (c_data c) avg sy /\
    af_centers fig = midpoints (map (rescale sx) (ap_limits p)) /\ af_widths fig = map (fun d => stretch sx * d) (ap_dx p) /\
    bin_opt sx sy false (ap_effect p) = Ok (af_heights fig) /\
    exists var, bin_opt sx sy true (ap_var p) = Ok var /\ af_yerr fig = match h with PyBool false => None | _ => Some (map rt var) end.
Proof.
  intros I H. unfold aplot in H.
  destruct (prep_confidence_interval het) as [h|] eqn:E1; [|discriminate]. cbn [bind] in H.
  destruct (prep_centering cv) as [ce|] eqn:E2; [|discriminate]. cbn [bind] in H.
  destruct (getn (c_mins c) f) as [lo|] eqn:E3; [|discriminate]. cbn [bind] in H.
  destruct (eval c rt st f [lo] false ce) as [st1 [[y1 h1]|e]] eqn:E4; [|discriminate].
  pose proof (eval_inv c rt st f [lo] false ce I) as I1. rewrite E4 in I1. cbn [fst] in I1.
  destruct (st_fe st1 f) as [[p nc]|] eqn:E5; [|discriminate]. unfold ale_plot in H.
  destruct (getn (ap_limits p) 0) as [a|] eqn:E6; [|discriminate]. cbn [bind] in H.
  destruct (getn (ap_limits p) (length (ap_limits p) - 1)) as [b|] eqn:E7; [|discriminate]. cbn [bind] in H.
  apply (getn_inv _ _ _ 0) in E6 as [L6 E6]. apply (getn_inv _ _ _ 0) in E7 as [_ E7].
  rewrite <- E6, <- E7 in H. set (grid := linspace _ _ curve_points) in *.
  destruct (eval c rt st1 f grid true ce) as [st2 r2] eqn:E8. injection H as -> H.
  apply bind_ok in H as ([ys hs] & -> & H). apply bind_ok in H as (var & B1 & H). apply bind_ok in H as (eff & B2 & H).
  pose proof E8 as E9. destruct (eval_ok c rt st1 f grid true ce st' ys hs I1 E8) as (ce' & p' & nc' & g & Q1 & Q2 & Q3 & Q4 & _ & _ & _ & _ & _ & _ & Q5 & _).
  destruct (Q5 eq_refl) as (gh & _ & ->).
  assert (SF : st_fe st' f = st_fe st1 f).
  { pose proof (eval_twice c rt st f [lo] false ce st1 _ E4 grid true) as T. rewrite E8 in T.
    unfold eval in E8. rewrite Q1 in E8. unfold eval in E4. rewrite Q1 in E4.
    destruct (refit c st f ce') as [[|]|e] eqn:R; [| |discriminate].
    - destruct (fit c st [f] (default_method c) ce) as [s2 [u|e]] eqn:F; [|discriminate]. injection E4 as <- _.
      unfold eval in T. rewrite Q1, R, F in T. injection T as -> _. reflexivity.
    - injection E4 as <- _. rewrite R in E8. now injection E8 as <- _. }
  rewrite E5 in SF. rewrite Q2 in SF. injection SF as -> ->.
  injection H as <-. exists h, ce, p, nc, ys, (map gh grid). split; [reflexivity|]. split; [reflexivity|]. split; [exact Q2|]. split; [exact Q3|].
  cbv zeta. cbn [af_x af_y af_avg af_centers af_widths af_heights af_yerr]. fold grid.
  split; [|split; [|split; [|split; [|split; [|split; [|split; [|split]]]]]]].
  - rewrite <- (eval_prep c rt st f grid true cv ce E2). rewrite <- (eval_twice c rt st f [lo] false ce st1 _ E4 grid true). exact E9.
  - intros EQ. rewrite EQ in L6. simpl in L6. lia.
  - apply map_affine.
  - apply map_affine.
  - reflexivity.
  - now rewrite map_affine.
  - apply map_ext. intros. apply scale_stretch.
  - exact B2.
  - exists var. split; [exact B1|]. reflexivity.
Qed.

Lemma sum_zero {A} (h : A -> Qc) l : (forall a, In a l -> h a = 0) -> sumq (map h l) = 0.
Proof. induction l as [|a l IH]; intros H; simpl; [reflexivity|]. rewrite H by now left. rewrite IH by (intros; apply H; now right). ring. Qed.
Lemma sum_single h n k : (k < n)%nat -> (forall j, (j < n)%nat -> j <> k -> h j = 0) -> sumq (map h (seq 0 n)) = h k.
Proof.
  intros Hk H. replace n with (k + (1 + (n - k - 1)))%nat by lia. rewrite seq_app, map_app, sumq_app. simpl seq. simpl map. rewrite sumq_cons.
  rewrite sum_zero; [|intros j Hj; apply in_seq in Hj; apply H; lia]. rewrite sum_zero; [ring|]. intros j Hj. apply in_seq in Hj. apply H; lia.
Qed.
Lemma sumq_minus {A} (g h : A -> Qc) l : sumq (map g l) - sumq (map h l) = sumq (map (fun a => g a - h a) l).
Proof. induction l as [|a l IH]; simpl; [ring|]. rewrite <- IH. ring. Qed.
Lemma increasing_le l i j : increasing l -> (i <= j)%nat -> (j < length l)%nat -> l@i <= l@j.
Proof. intros H H1 H2. destruct (Nat.eq_dec i j) as [->|]; [apply Qcle_refl|]. apply Qclt_le_weak. apply H; lia. Qed.
(** Inside bin number k the integral of the step function is a straight line of slope e_k. *)
Lemma step_integral_in_bin l es k x y : increasing l -> (S k < length l)%nat -> l@k <= x -> x <= l@(S k) -> l@k <= y -> y <= l@(S k) ->
  step_integral l es y - step_integral l es x = es@k * (y - x).
Proof.
  intros HI Hk X1 X2 Y1 Y2. unfold step_integral. rewrite sumq_minus. rewrite (sum_single _ _ k).
  - assert (l@k <= l@(S k)) by (apply increasing_le; [assumption|lia|lia]). rewrite !clip_mid by assumption. ring.
  - lia.
  - intros j Hj NE. assert (l@j <= l@(S j)) by (apply increasing_le; [assumption|lia|lia]). destruct (Nat.lt_ge_cases j k) as [L|L].
    + assert (l@(S j) <= l@k) by (apply increasing_le; [assumption|lia|lia]). rewrite !clip_right by qlra. ring.
    + assert (l@(S k) <= l@j) by (apply increasing_le; [assumption|lia|lia]). rewrite !clip_left by qlra. ring.
Qed.

(** The bars of an ALE plot. *)
Lemma aplot_bars c rt st f het cv sx sy sh avg st' fig : inv c st -> aplot c rt st f het cv sx sy sh avg = (st', Ok fig) ->
  exists l, af_centers fig = midpoints (map (rescale sx) l) /\ af_widths fig = diffs (map (rescale sx) l) /\
    (increasing l -> (2 <= length l)%nat -> l@(length l - 1) <= BIG_M -> length (af_heights fig) = (length l - 1)%nat ->
     (sy = None -> sx = None) ->
     forall k u v, (S k < length l)%nat -> l@k <= u -> u <= l@(S k) -> l@k <= v -> v <= l@(S k) ->
     exists a b hs, snd (eval c rt st f [u; v] true cv) = Ok ([a; b], hs) /\
       rescale sy b - rescale sy a = (af_heights fig)@k * (rescale sx v - rescale sx u)).
Proof.
  intros I H. destruct (aplot_spec _ _ _ _ _ _ _ _ _ _ _ _ I H) as (h & ce & p & nc & ys & hs & E1 & E2 & SF & FF & E3 & NE & _ & _ & _ & C1 & C2 & BE & _).
  exists (ap_limits p). destruct FF as (xs & es & l0 & HP). destruct (ale_params_shape _ _ _ _ HP) as (_ & L1 & L2 & _). subst l0.
  split; [exact C1|]. split.
  { rewrite C2, L2. clear. generalize (ap_limits p) as l. intros l. unfold diffs. rewrite map_map. induction l as [|a [|b l] IH]; try reflexivity. simpl in *. f_equal; [symmetry; apply rescale_diff|exact IH]. }
  intros IN L B LH SS k u v Hk U1 U2 V1 V2.
  assert (LE : length (ap_effect p) = (length (ap_limits p) - 1)%nat) by (apply bin_opt_spec in BE as [BL _]; congruence).
  destruct (eval_ok c rt st f _ true cv st' ys (Some hs) I E3) as (ce' & p' & nc' & g & Q1 & Q2 & Q3 & Q4 & Q5 & Q6 & Q7 & Q8 & Q9 & Q10 & Q11 & _ & Q12).
  rewrite SF in Q2. injection Q2 as <- <-.
  assert (G : forall x, x <= (ap_limits p)@(length (ap_limits p) - 1) -> g x = step_integral (ap_limits p) (ap_effect p) x).
  { intros x Hx. specialize (Q9 [x]). unfold eval_unnorm in Q9. rewrite L2 in Q9. rewrite accumulated_effect_below_bigM in Q9; try assumption.
    - simpl in Q9. now injection Q9 as <-.
    - intros z [<-|[]]. left. qlra. }
  assert (Q11' : true = true -> exists gh, forall zs, eval_heter rt p zs = Ok (map gh zs)) by (intros _; destruct (Q11 eq_refl) as (gh & GH & _); now exists gh).
  destruct (eval_again c rt st' f [u; v] true p nc g ce' cv Q1 Q4 Q7 Q5 Q6 Q8 SF Q9 Q11' Q12) as (hh & EV & _).
  rewrite (eval_twice _ _ _ _ _ _ _ _ _ E3) in EV.
  exists (g u - shift_of c f ce' g), (g v - shift_of c f ce' g), hh. rewrite EV. split; [reflexivity|].
  rewrite !rescale_diff. assert (K : (ap_limits p)@(S k) <= (ap_limits p)@(length (ap_limits p) - 1)) by (apply increasing_le; [assumption|lia|lia]).
  replace (g v - shift_of c f ce' g - (g u - shift_of c f ce' g)) with (g v - g u) by ring. rewrite !G by qlra. rewrite (step_integral_in_bin _ _ k) by assumption.
  apply bin_opt_spec in BE as [_ BE]. destruct sy as [[my dy]|].
  - destruct BE as ([mx dx] & -> & NZ & BE). rewrite BE. rewrite (nth_map_in _ _ _ 0) by lia. simpl in *. field. apply NZ. intros EQ. rewrite EQ in LE. simpl in LE. lia.
  - rewrite (SS eq_refl). rewrite BE. simpl. ring.
Qed.

(** ** PDP *)
Lemma finite_ok l r : finite l = Ok r -> l = map Some r.
Proof.
  unfold finite. revert r. induction l as [|o l IH]; intros r H; simpl in H; [now injection H as <-|].
  destruct o as [v|]; [|discriminate]. cbn [bind] in H. apply bind_ok in H as (r' & H1 & H). injection H as <-. simpl. f_equal. now apply IH.
Qed.
Lemma vzip_same {A B C} (g : A -> B -> C) a b r : length a = length b -> vzip g a b = Ok r -> r = map (fun p => g (fst p) (snd p)) (combine a b).
Proof. intros L H. rewrite vzip_eq in H by assumption. now injection H as <-. Qed.
Lemma band_ok ys ws b : length ys = length ws -> band ys ws = Ok b -> is_band ys ws b.
Proof.
  intros L H. unfold band in H. apply bind_ok in H as (lo & H1 & H). apply bind_ok in H as (hi & H2 & H). injection H as <-.
  apply vzip_same in H1; [|assumption]. apply vzip_same in H2; [|assumption]. now split.
Qed.
Lemma peval_all c rt st f xs h cv vec st' yy : peval c rt st f xs h cv true vec = (st', Ok (OAll yy)) ->
  peval c rt st f xs false cv false vec = (st', Ok (OMean (row_means yy))) /\
  peval c rt st f xs true cv false vec = (st', Ok (OMeanStd (row_means yy) (row_stds rt yy))).
Proof.
  intros H. unfold peval in *. destruct (prep_cent cv) as [ce|]; [|discriminate].
  assert (K : forall s, peval_fitted c rt s f xs h ce true vec = Ok (OAll yy) ->
     peval_fitted c rt s f xs false ce false vec = Ok (OMean (row_means yy)) /\ peval_fitted c rt s f xs true ce false vec = Ok (OMeanStd (row_means yy) (row_stds rt yy))).
  { intros s E. unfold peval_fitted in *. destruct (getn (p_mins c) f); [|discriminate]. destruct (getn (p_maxs c) f); [|discriminate]. cbn [bind] in *.
    destruct (assert_ _) as [[]|]; [|discriminate]. cbn [bind] in *. destruct (predict c vec (ps_data s) xs f) as [y0|]; [|discriminate]. cbn [bind] in *.
    apply bind_ok in E as (y1 & E1 & E). injection E as <-. rewrite E1. now split. }
  destruct (prefit st f ce) as [[|]|]; [| |discriminate].
  - destruct (pfit c st [f] cv default_pts vec) as [s [u|]]; [|discriminate]. injection H as -> H. destruct (K _ H) as [-> ->]. now split.
  - injection H as -> H. destruct (K _ H) as [-> ->]. now split.
Qed.
Lemma peval_all_shape c rt st f xs h cv vec st' o : peval c rt st f xs h cv true vec = (st', Ok o) -> exists yy, o = OAll yy.
Proof.
  intros H. unfold peval in *. destruct (prep_cent cv) as [ce|]; [|discriminate].
  assert (K : forall s, peval_fitted c rt s f xs h ce true vec = Ok o -> exists yy, o = OAll yy).
  { intros s E. unfold peval_fitted in *. destruct (getn (p_mins c) f); [|discriminate]. destruct (getn (p_maxs c) f); [|discriminate]. cbn [bind] in *.
    destruct (assert_ _) as [[]|]; [|discriminate]. cbn [bind] in *. destruct (predict c vec (ps_data s) xs f) as [y0|]; [|discriminate]. cbn [bind] in *.
    apply bind_ok in E as (y1 & E1 & E). injection E as <-. now exists y1. }
  destruct (prefit st f ce) as [[|]|]; [| |discriminate].
  - destruct (pfit c st [f] cv default_pts vec) as [s [u|]]; [|discriminate]. injection H as -> H. now apply (K _ H).
  - injection H as -> H. now apply (K _ H).
Qed.

(** What a PDP plot draws. *)
Lemma pplot_spec c rt choice st f het cv np sx sy ni sh avg vec st' fig : pplot c rt choice st f het cv np sx sy ni sh avg vec = (st', Ok fig) ->
  exists h n yy ys ws, prep_confidence_interval het = Ok h /\ pts_of np = Ok n /\ length yy = length ys /\
    let grid := linspace (p_mins c)@f (p_maxs c)@f n in
    peval c rt st f grid false cv true vec = (st', Ok (OAll yy)) /\
    row_means yy = map Some ys /\ row_stds rt yy = map Some ws /\
    pf_x fig = map (rescale sx) grid /\ pf_y fig = map (rescale sy) ys /\ pf_avg fig = avg_line sh (ps_data st') avg sy /\
    (h = PyStr "std" -> exists sd b, row_stds rt (map (map (rescale sy)) yy) = map Some sd /\ pf_band fig = Some b /\ is_band (map (rescale sy) ys) sd b) /\
    (h = PyStr "std_err" -> exists b, pf_band fig = Some b /\ is_band (map (rescale sy) ys) (map (fun w => stretch sy * w) ws) b) /\
    (h <> PyStr "std" -> h <> PyStr "std_err" -> pf_band fig = None) /\
    (h = PyStr "ice" -> exists cols sel nof, nof_ice_of ni (width (length (rows (ps_data st'))) yy) = Ok nof /\
       ice_columns choice nof (width (length (rows (ps_data st'))) yy) = Ok cols /\ cols <> [] /\
       take_cols (map (map (rescale sy)) yy) cols = Ok sel /\ pf_ice fig = Some sel) /\
    (h <> PyStr "ice" -> pf_ice fig = None).
Proof.
  intros H. unfold pplot in H.
  destruct (prep_confidence_interval het) as [h|] eqn:E1; [|discriminate]. cbn [bind] in H.
  destruct (prep_centering cv) as [ce|] eqn:E2; [|discriminate]. cbn [bind] in H.
  destruct (getn (p_mins c) f) as [lo|] eqn:E3; [|discriminate]. cbn [bind] in H.
  destruct (getn (p_maxs c) f) as [hi|] eqn:E4; [|discriminate]. cbn [bind] in H.
  destruct (pts_of np) as [n|] eqn:E5; [|discriminate]. cbn [bind] in H.
  apply (getn_inv _ _ _ 0) in E3 as [_ E3]. apply (getn_inv _ _ _ 0) in E4 as [_ E4]. rewrite <- E3, <- E4 in H. set (grid := linspace _ _ n) in *.
  destruct (peval c rt st f grid false ce true vec) as [st1 r] eqn:E6. injection H as -> H. apply bind_ok in H as (o & -> & H).
  rewrite (peval_prep c rt st f grid false cv ce true vec E2) in E6. destruct (peval_all_shape _ _ _ _ _ _ _ _ _ _ E6) as (yy & ->).
  unfold plot_pdp_ice in H. set (N := width _ yy) in *. apply bind_ok in H as (ys & H1 & H). apply bind_ok in H as (nof & H2 & H). apply bind_ok in H as (ws & H3 & H).
  apply finite_ok in H1, H3. cbv zeta in H.
  change (map (fun v => if false then scale_opt sy v else affine_opt sy v) ys) with (map (affine_opt sy) ys) in H.
  assert (EY : map (map (fun v => affine_opt sy v)) yy = map (map (rescale sy)) yy) by (apply map_ext; intros; apply map_affine).
  rewrite map_affine in H. cbn iota in H. rewrite EY in H.
  replace (map (scale_opt sy) ws) with (map (fun w => stretch sy * w) ws) in H by (apply map_ext; intros; symmetry; apply scale_stretch).
  apply bind_ok in H as (bd & H4 & H). apply bind_ok in H as (ic & H5 & H). injection H as <-.
  assert (LY : length yy = length ys) by (apply (f_equal (@length _)) in H1; unfold row_means in H1; rewrite !map_length in H1; exact H1).
  assert (LW : length ys = length ws) by (rewrite <- LY; apply (f_equal (@length _)) in H3; unfold row_stds in H3; rewrite !map_length in H3; exact H3).
  exists h, n, yy, ys, ws. split; [reflexivity|]. split; [reflexivity|]. split; [exact LY|]. cbv zeta. fold grid. cbn [pf_x pf_y pf_avg pf_band pf_ice].
  split; [exact E6|]. split; [exact H1|]. split; [exact H3|]. split; [apply map_affine|]. split; [reflexivity|]. split; [reflexivity|].
  split; [|split; [|split; [|split]]].
  - intros ->. change (String.eqb "std" "std") with true in H4. cbn iota in H4. apply bind_ok in H4 as (sd & H6 & H4). apply finite_ok in H6.
    destruct (band (map (rescale sy) ys) sd) as [b|] eqn:B; [|discriminate]. injection H4 as <-. exists sd, b. split; [exact H6|]. split; [reflexivity|].
    apply band_ok; [|exact B]. apply (f_equal (@length _)) in H6. unfold row_stds in H6. rewrite !map_length in H6. rewrite map_length. congruence.
  - intros ->. change (String.eqb "std_err" "std") with false in H4. change (String.eqb "std_err" "std_err") with true in H4. cbn iota in H4.
    destruct (band (map (rescale sy) ys) _) as [b|] eqn:B; [|discriminate]. injection H4 as <-. exists b. split; [reflexivity|]. apply band_ok; [|exact B]. now rewrite !map_length.
  - intros N1 N2. destruct h as [|s| | |]; try (now injection H4 as <-). destruct (String.eqb_spec s "std") as [->|]; [congruence|]. destruct (String.eqb_spec s "std_err") as [->|]; [congruence|]. now injection H4 as <-.
  - intros ->. change (String.eqb "ice" "ice") with true in H5. cbn iota in H5. apply bind_ok in H5 as (cols & H6 & H5). apply bind_ok in H5 as (sel & H7 & H5).
    exists cols, sel, nof. split; [exact H2|]. split; [exact H6|]. destruct cols as [|k cols]; [destruct sel; discriminate|]. split; [discriminate|]. split; [exact H7|]. destruct sel; now injection H5 as <-.
  - intros N1. destruct h as [|s| | |]; try (now injection H5 as <-). destruct (String.eqb_spec s "ice") as [->|]; [congruence|]. now injection H5 as <-.
Qed.

(** ** SHAP dependence plots *)
Lemma prep_cent_no cv : prep_cent cv = Ok NoCent -> cv = PyBool false.
Proof.
  unfold prep_cent. destruct cv as [[]|s| | |]; simpl; try discriminate; [reflexivity|].
  destruct (String.eqb s "zero_start") eqn:E1; simpl; [rewrite E1; discriminate|]. destruct (String.eqb s "zero_integral") eqn:E2; simpl; [rewrite E1; discriminate|discriminate].
Qed.
Definition shown_shift (cv : pyval) (v : fitted_shap) : Qc := match cv with PyBool false => 0 | _ => f_norm v end.
Lemma seval_shape c st f xs het cv st' y h : seval c st f xs het cv = (st', Ok (y, h)) ->
  exists v, ss_fe st' f = Some v /\ ss_fitted st' f = true /\ y = map (fun x => f_mean v x - shown_shift cv v) xs /\ h = (if het then Some (map (f_std v) xs) else None) /\
    (forall h', seval c st f xs h' cv = (st', Ok (y, if h' then Some (map (f_std v) xs) else None))) /\
    (cv <> PyBool false -> exists ce, prep_cent cv = Ok ce /\ ce <> NoCent /\ ss_args st' f = Some ce).
Proof.
  intros H. unfold seval in H. destruct (prep_cent cv) as [ce|] eqn:PC; [|discriminate].
  assert (K : forall s, seval_fitted c s f xs het ce = Ok (y, h) -> exists v, ss_fe s f = Some v /\ y = map (fun x => f_mean v x - shown_shift cv v) xs /\ h = (if het then Some (map (f_std v) xs) else None) /\
     forall h', seval_fitted c s f xs h' ce = Ok (y, if h' then Some (map (f_std v) xs) else None)).
  { intros s E. unfold seval_fitted in *. destruct (getn (s_mins c) f); [|discriminate]. destruct (getn (s_maxs c) f); [|discriminate]. cbn [bind] in *.
    destruct (assert_ _) as [[]|]; [|discriminate]. cbn [bind] in *. destruct (ss_fe s f) as [v|]; [|discriminate]. injection E as <- <-. exists v. split; [reflexivity|].
    split; [|split; [reflexivity|reflexivity]]. destruct ce.
    - apply prep_cent_no in PC as ->. simpl. apply map_ext. intros. ring.
    - rewrite map_map. apply map_ext. intros x. unfold shown_shift. destruct cv as [[]| | | |]; try reflexivity. discriminate.
    - rewrite map_map. apply map_ext. intros x. unfold shown_shift. destruct cv as [[]| | | |]; try reflexivity. discriminate. }
  destruct (srefit st f ce) as [[|]|] eqn:R; [| |discriminate].
  - destruct (sfit c st [f] cv (PyInt 100)) as [s [u|]] eqn:F; [|discriminate]. injection H as -> H. destruct (K _ H) as (v & K1 & K2 & K3 & K4). exists v.
    assert (A : ss_fitted st' f = true /\ ss_args st' f = Some ce).
    { unfold sfit in F. rewrite PC in F. simpl in F. unfold sfit_one in F. destruct (sfit_feature c (ss_data st) f ce (PyInt 100)) as [X' [w|]]; [|discriminate]. injection F as <- _. simpl. now rewrite !upd_same. }
    destruct A as [A1 A2]. split; [exact K1|]. split; [exact A1|]. split; [exact K2|]. split; [exact K3|]. split.
    + intros h'. unfold seval. rewrite PC, R, F. now rewrite K4.
    + intros NC. exists ce. split; [reflexivity|]. split; [|exact A2]. intros ->. now apply prep_cent_no in PC.
  - injection H as -> H. destruct (K _ H) as (v & K1 & K2 & K3 & K4). exists v.
    assert (A : ss_fitted st' f = true /\ (ce <> NoCent -> ss_args st' f = Some ce)).
    { unfold srefit in R. destruct (Nat.ltb f (dim (ss_data st'))); [|discriminate]. destruct (ss_fitted st' f); [|discriminate]. simpl in R. split; [reflexivity|].
      intros NC. destruct ce; [congruence| |]; (destruct (ss_args st' f) as [a|]; [|discriminate]; injection R as R; destruct a; try discriminate; reflexivity). }
    destruct A as [A1 A2]. split; [exact K1|]. split; [exact A1|]. split; [exact K2|]. split; [exact K3|]. split.
    + intros h'. unfold seval. rewrite PC, R. now rewrite K4.
    + intros NC. exists ce. split; [reflexivity|]. assert (N2 : ce <> NoCent) by (intros ->; now apply prep_cent_no in PC). split; [exact N2|now apply A2].
Qed.
Lemma take_ok_length {A} (l : list A) idx r : take l idx = Ok r -> length r = length idx.
Proof. unfold take. apply mapM_length. Qed.

Lemma splot_spec c choice st f het cv np sx sy ns sh avg st' fig : splot c choice st f het cv np sx sy ns sh avg = (st', Ok fig) ->
  exists h n v ys, prep_confidence_interval het = Ok h /\ spts_of np = Ok n /\ ss_fe st' f = Some v /\
    let grid := linspace (s_mins c)@f (s_maxs c)@f n in
    seval c st f grid false cv = (st', Ok (ys, None)) /\
    hf_x fig = map (rescale sx) grid /\ hf_y fig = map (rescale sy) ys /\ hf_avg fig = avg_line sh (ss_data st') avg sy /\
    (h = PyStr "std" -> exists b, hf_band fig = Some b /\ is_band (map (rescale sy) ys) (map (fun x => stretch sy * f_std v x) grid) b) /\
    (h <> PyStr "std" -> hf_band fig = None) /\
    (h = PyStr "shap_values" -> exists k ind xx yy, prep_nof_instances choice ns (length (rows (ss_data st'))) = Ok (k, ind) /\
       take (f_xx v) ind = Ok xx /\ take (f_yy v) ind = Ok yy /\
       hf_points fig = Some (map (rescale sx) xx, map (fun t => rescale sy (t - shown_shift cv v)) yy)) /\
    (h <> PyStr "shap_values" -> hf_points fig = None /\ sx = None /\ sy = None).
Proof.
  intros H. unfold splot in H.
  destruct (prep_confidence_interval het) as [h|] eqn:E1; [|discriminate]. cbn [bind] in H.
  destruct (getn (s_mins c) f) as [lo|] eqn:E3; [|discriminate]. cbn [bind] in H.
  destruct (getn (s_maxs c) f) as [hi|] eqn:E4; [|discriminate]. cbn [bind] in H.
  destruct (spts_of np) as [n|] eqn:E5; [|discriminate]. cbn [bind] in H.
  apply (getn_inv _ _ _ 0) in E3 as [_ E3]. apply (getn_inv _ _ _ 0) in E4 as [_ E4]. rewrite <- E3, <- E4 in H. set (grid := linspace _ _ n) in *.
  destruct (seval c st f grid false cv) as [st1 [[ys h0]|]] eqn:E6; [|discriminate]. injection H as -> H.
  destruct (seval_shape _ _ _ _ _ _ _ _ _ E6) as (v & F1 & F2 & F3 & F4 & F5 & _). rewrite F1 in H.
  apply bind_ok in H as ([k ind] & H1 & H). apply bind_ok in H as (pts & H2 & H). unfold plot_shap in H. cbv zeta in H.
  apply bind_ok in H as (u1 & G1 & H). apply bind_ok in H as (u2 & G2 & H).
  rewrite !map_affine in H. apply bind_ok in H as (bd & H4 & H). apply bind_ok in H as (ps & H5 & H). injection H as <-.
  exists h, n, v, ys. split; [reflexivity|]. split; [reflexivity|]. split; [exact F1|]. cbv zeta. fold grid. cbn [hf_x hf_y hf_avg hf_band hf_points].
  simpl in F4. subst h0. split; [exact E6|]. split; [reflexivity|]. split; [reflexivity|]. split; [reflexivity|]. split; [|split; [|split]].
  - intros ->. change (String.eqb "std" "std") with true in H4. cbn iota in H4. destruct (band _ _) as [b|] eqn:B; [|discriminate]. injection H4 as <-. exists b. split; [reflexivity|].
    replace (map (fun x => stretch sy * f_std v x) grid) with (map (scale_opt sy) (map (f_std v) grid)) by (rewrite map_map; apply map_ext; intros; apply scale_stretch).
    apply band_ok; [|exact B]. subst ys. now rewrite !map_length.
  - intros N1. destruct h as [|s| | |]; try (now injection H4 as <-). destruct (String.eqb_spec s "std") as [->|]; [congruence|]. now injection H4 as <-.
  - intros ->. change (String.eqb "shap_values" "shap_values") with true in H2, H5. cbn iota in H2, H5. apply bind_ok in H2 as (yy & H6 & H2). apply bind_ok in H2 as (xx & H7 & H2). injection H2 as <-.
    exists k, ind, xx, yy. split; [exact H1|]. split; [exact H7|]. split; [exact H6|].
    assert (EY : match cv with PyBool false => yy | _ => map (fun t => t - f_norm v) yy end = map (fun t => t - shown_shift cv v) yy).
    { unfold shown_shift. destruct cv as [[]| | | |]; try reflexivity. rewrite <- (map_id yy) at 1. apply map_ext. intros. ring. }
    rewrite EY in H5. clear EY. destruct xx as [|x0 xx]; [discriminate|]. destruct yy as [|y0 yy]; [discriminate|]. simpl map at 1 in H5. cbn iota in H5. injection H5 as <-. f_equal. f_equal.
    + apply (map_affine sx (x0 :: xx)).
    + rewrite map_map. simpl. f_equal; [apply affine_rescale|apply map_ext; intros; apply affine_rescale].
  - intros N1. assert (P : pts = None /\ ps = None).
    { destruct h as [|s| | |]; try (now injection H5 as <-; injection H2 as <-). destruct (String.eqb_spec s "shap_values") as [->|]; [congruence|]. now injection H5 as <-; injection H2 as <-. }
    destruct P as [-> ->]. split; [reflexivity|]. destruct sx; [discriminate|]. destruct sy; [discriminate|]. now split.
Qed.

(** ** Scaling of spreads *)
Lemma sqrt_unique a b : 0 <= a -> 0 <= b -> a * a = b * b -> a = b.
Proof.
  intros A B E. assert (F : (a - b) * (a + b) = 0) by (rewrite <- (Qcplus_opp_r (b * b)); rewrite <- E at 1; ring).
  apply Qcmult_integral in F as [F|F]; [|assert (a = 0) by qlra; assert (b = 0) by qlra; congruence]. replace a with (a - b + b) by ring. rewrite F. ring.
Qed.
Lemma sqrt_scaled rt v k : sqrt_at rt v -> sqrt_at rt (v * (k * k)) -> rt (v * (k * k)) = Qcabs k * rt v.
Proof.
  intros [A1 A2] [B1 B2]. apply sqrt_unique; [exact B1|apply Qcmult_le_0; [unfold Qcabs; qcase; qlra|exact A1]|].
  rewrite B2. replace (Qcabs k * rt v * (Qcabs k * rt v)) with ((Qcabs k * Qcabs k) * (rt v * rt v)) by ring. rewrite A2.
  assert (E : Qcabs k * Qcabs k = k * k) by (unfold Qcabs; destruct (0 <=? k); ring). rewrite E. ring.
Qed.
Lemma sumq_rescale_mul (m d : Qc) (l : list Qc) : sumq (map (fun v => m + d * v) l) = qn (length l) * m + d * sumq l.
Proof.
  induction l as [|a l IH]; [cbn [map length sumq fold_right]; rewrite qn_0; ring|]. cbn [map length]. rewrite !sumq_cons, IH. rewrite qn_S. ring.
Qed.
Lemma mean_rescale s l : l <> [] -> mean (map (rescale s) l) = rescale s (mean l).
Proof.
  intros NE. destruct s as [[m d]|]; [|simpl; now rewrite map_id]. unfold mean. rewrite map_length. change (rescale (Some (m, d))) with (fun v => m + d * v). rewrite sumq_rescale_mul. field. apply qn_neq0. destruct l; [congruence|simpl; lia].
Qed.
Lemma mean_factor {A} (g : A -> Qc) k l : mean (map (fun v => k * g v) l) = mean (map g l) * k.
Proof.
  unfold mean. rewrite !map_length. assert (E : sumq (map (fun v => k * g v) l) = k * sumq (map g l)) by (induction l as [|a l IH]; simpl; [ring|rewrite IH; ring]).
  rewrite E. unfold Qcdiv. ring.
Qed.
Lemma variance_rescale s l : l <> [] -> variance (map (rescale s) l) = variance l * (stretch s * stretch s).
Proof.
  intros NE. unfold variance. rewrite mean_rescale by assumption. rewrite map_map.
  rewrite (map_ext _ (fun v => (stretch s * stretch s) * ((v - mean l) * (v - mean l)))); [|intros v; rewrite rescale_diff; ring].
  apply (mean_factor (fun v => (v - mean l) * (v - mean l))).
Qed.

(** ** SHAP points *)
Lemma splot_history c X choice ks f cv ce np sx sy ns sh avg st' fig : sorts (s_argsort c) -> prep_cent cv = Ok ce ->
  splot c choice (srun c (sfresh X) ks) f (PyStr "shap_values") cv np sx sy ns sh avg = (st', Ok fig) ->
  exists T pairs m s z n k ind pts, In f T /\ (forall t, In t T -> t = f \/ exists q, In q ks /\ stouches t q) /\
    shap_fit (s_explain c) (s_spline c) (rows_inside (s_mins c) (s_maxs c) T (rows X)) f pairs m s /\
    spts_of np = Ok n /\ prep_nof_instances choice ns (length (rows (ss_data st'))) = Ok (k, ind) /\
    take pairs ind = Ok pts /\
    hf_y fig = map (fun x => rescale sy (m x - z)) (linspace (s_mins c)@f (s_maxs c)@f n) /\
    hf_points fig = Some (map (fun p => rescale sx (fst p)) pts, map (fun p => rescale sy (snd p - z)) pts) /\
    match ce with NoCent => z = 0 | _ => exists q, spoints ks f q /\ shap_shift m (map fst pairs) ce q z end.
Proof.
  intros SO EC H. destruct (splot_spec _ _ _ _ _ _ _ _ _ _ _ _ _ _ H) as (h & n & v & ys & H1 & H2 & H3 & H4 & _ & H6 & _ & _ & _ & H7 & _).
  simpl in H1. injection H1 as <-. destruct (H7 eq_refl) as (k & ind & xx & yy & P1 & P2 & P3 & P4).
  set (st := srun c (sfresh X) ks) in *. set (P := fun t => t = f \/ exists q, In q ks /\ stouches t q).
  assert (HI : shinv c X P (spoints ks) st').
  { replace st' with (fst (seval c st f (linspace (s_mins c)@f (s_maxs c)@f n) false cv)) by now rewrite H4. apply seval_shinv; [exact SO|now left|now left|].
    apply srun_shinv; [exact SO| | | |apply shinv_fresh].
    - intros g q Hq Hg. right. eauto.
    - intros g. now left.
    - intros fs cv' pts g m Hk Hg Hn. right. eauto 6. }
  destruct (seval_shape _ _ _ _ _ _ _ _ _ H4) as (v' & F1 & F2 & F3 & _ & _ & F6). rewrite H3 in F1. injection F1 as <-.
  destruct HI as [_ HF]. destruct (HF f F2) as (v' & ce0 & q & T & E1 & E2 & Hn & HT & HP & (pairs & SF & X1 & X2 & NE & SH)). rewrite H3 in E1. injection E1 as <-.
  assert (TP : exists pts, take pairs ind = Ok pts /\ xx = map fst pts /\ yy = map snd pts).
  { rewrite X1 in P2. rewrite X2 in P3. clear -P2 P3. unfold take in *. revert xx yy P2 P3. induction ind as [|i ind IH]; intros xx yy H1 H2; simpl in *; [injection H1 as <-; injection H2 as <-; now exists []|].
    apply bind_ok in H1 as (a & A1 & H1). apply bind_ok in H1 as (l & A2 & H1). injection H1 as <-. apply bind_ok in H2 as (b & B1 & H2). apply bind_ok in H2 as (l2 & B2 & H2). injection H2 as <-.
    destruct (IH _ _ A2 B2) as (pts & -> & -> & ->). unfold getn in *. rewrite nth_error_map in A1, B1. destruct (nth_error pairs i) as [[x y]|]; [|discriminate]. simpl in *. injection A1 as <-. injection B1 as <-.
    exists ((x, y) :: pts). now split. }
  destruct TP as (pts & TP & -> & ->).
  exists T, pairs, (f_mean v), (f_std v), (shown_shift cv v), n, k, ind, pts. split; [exact HT|]. split; [exact HP|]. split; [exact SF|]. split; [exact H2|]. split; [exact P1|]. split; [exact TP|].
  split; [rewrite H6, F3, map_map; reflexivity|]. split; [rewrite P4, !map_map; reflexivity|].
  assert (D : ce = NoCent \/ cv <> PyBool false) by (destruct ce; [now left| |]; right; intros ->; discriminate). destruct D as [-> | D].
  - apply prep_cent_no in EC as ->. reflexivity.
  - destruct (F6 D) as (ce' & G1 & G2 & G3). rewrite EC in G1. injection G1 as <-. rewrite G3 in E2. injection E2 as <-.
    assert (SS : shown_shift cv v = f_norm v) by (unfold shown_shift; destruct cv as [[]| | | |]; congruence). rewrite SS.
    destruct ce; [congruence| |].
    + exists 100%nat. split; [now left|]. rewrite X1 in SH. exact SH.
    + exists q. split; [now apply Hn|]. rewrite X1 in SH. exact SH.
Qed.

Section AllInside.
Variable c : sconfig.
Variable X : data.
Hypothesis IN : all_inside (s_mins c) (s_maxs c) X.
Definition dinv (st : sstate) : Prop := ss_data st = X /\ forall f, ss_fitted st f = true -> exists v ce pts, ss_fe st f = Some v /\ snd (sfit_feature c X f ce pts) = Ok v.
Lemma sfit_one_dinv st f ce pts : dinv st -> dinv (fst (sfit_one c st f ce pts)).
Proof.
  intros [D F]. unfold sfit_one. rewrite D. pose proof (sfit_feature_data c X IN f ce pts) as E. destruct (sfit_feature c X f ce pts) as [X' [v|e]] eqn:SF; simpl in E; subst X'.
  - split; [reflexivity|]. cbn [fst ss_fitted ss_fe]. intros g Hg. destruct (Nat.eq_dec g f) as [->|NE]; [|rewrite !upd_other in * by congruence; now apply F].
    rewrite !upd_same.
    exists v, ce, pts. split; [reflexivity|]. now rewrite SF.
  - split; [reflexivity|]. exact F.
Qed.
Lemma sfit_loop_dinv fs : forall st ce pts, dinv st -> dinv (fst (sfit_loop c st fs ce pts)).
Proof.
  induction fs as [|f fs IH]; intros st ce pts D; [exact D|]. simpl. pose proof (sfit_one_dinv st f ce pts D) as D'. destruct (sfit_one c st f ce pts) as [s [u|e]]; [|exact D']. now apply IH.
Qed.
Lemma seval_dinv st f xs h cv : dinv st -> dinv (fst (seval c st f xs h cv)).
Proof.
  intros D. unfold seval. destruct (prep_cent cv) as [ce|e] eqn:PC; [|exact D]. destruct (srefit st f ce) as [[|]|e]; [|exact D..].
  unfold sfit. rewrite PC. pose proof (sfit_loop_dinv [f] st ce (PyInt 100) D) as D'. destruct (sfit_loop c st [f] ce (PyInt 100)) as [s [u|e]]; exact D'.
Qed.
Lemma srun_dinv ks : forall st, dinv st -> dinv (srun c st ks).
Proof.
  induction ks as [|k ks IH]; intros st D; [exact D|]. simpl. apply IH. destruct k as [fs cv pts|f xs h cv]; simpl; [|now apply seval_dinv].
  unfold sfit. destruct (prep_cent cv); [|exact D]. now apply sfit_loop_dinv.
Qed.
Lemma dinv_fresh : dinv (sfresh X). Proof. split; [reflexivity|discriminate]. Qed.
End AllInside.
Lemma take_seq {A} (l pre : list A) : take (pre ++ l) (seq (length pre) (length l)) = Ok l.
Proof.
  revert pre. induction l as [|a l IH]; intros pre; [reflexivity|]. unfold take in *. simpl. unfold getn at 1. rewrite nth_error_app2, Nat.sub_diag by lia. cbn [nth_error bind].
  specialize (IH (pre ++ [a])). rewrite <- app_assoc, app_length in IH. simpl in IH. rewrite Nat.add_1_r in IH. now rewrite IH.
Qed.
Lemma splot_all c X choice ks f cv np sx sy sh avg st' fig : sorts (s_argsort c) -> all_inside (s_mins c) (s_maxs c) X ->
  splot c choice (srun c (sfresh X) ks) f (PyStr "shap_values") cv np sx sy (PyStr "all") sh avg = (st', Ok fig) ->
  exists pairs m s z n, shap_fit (s_explain c) (s_spline c) (rows X) f pairs m s /\ spts_of np = Ok n /\
    hf_y fig = map (fun x => rescale sy (m x - z)) (linspace (s_mins c)@f (s_maxs c)@f n) /\
    hf_points fig = Some (map (fun p => rescale sx (fst p)) pairs, map (fun p => rescale sy (snd p - z)) pairs).
Proof.
  intros SO IN H. destruct (splot_spec _ _ _ _ _ _ _ _ _ _ _ _ _ _ H) as (h & n & v & ys & H1 & H2 & H3 & H4 & _ & H6 & _ & _ & _ & H7 & _).
  simpl in H1. injection H1 as <-. destruct (H7 eq_refl) as (k & ind & xx & yy & P1 & P2 & P3 & P4). simpl in P1. injection P1 as <- <-.
  assert (D : dinv c X st').
  { replace st' with (fst (seval c (srun c (sfresh X) ks) f (linspace (s_mins c)@f (s_maxs c)@f n) false cv)) by now rewrite H4. apply seval_dinv; [exact IN|]. apply srun_dinv; [exact IN|apply dinv_fresh]. }
  destruct (seval_shape _ _ _ _ _ _ _ _ _ H4) as (v' & F1 & F2 & F3 & _). rewrite H3 in F1. injection F1 as <-.
  destruct D as [D1 D2]. destruct (D2 f F2) as (v' & ce & pts & E1 & E2). rewrite H3 in E1. injection E1 as <-. rewrite D1 in P2, P3.
  pose proof (sfit_feature_data c X IN f ce pts) as E3. destruct (sfit_feature c X f ce pts) as [X' r] eqn:SF. simpl in E2, E3. subst r X'.
  destruct (sfit_feature_ok c SO X f ce pts X v SF X [] (eq_sym (wlim_nil c X))) as (_ & _ & q & _ & (pairs & SH & X1 & X2 & _)).
  exists pairs, (f_mean v), (f_std v), (shown_shift cv v), n. split; [exact SH|]. split; [exact H2|].
  split; [rewrite H6, F3, map_map; reflexivity|].
  destruct SH as (V & _ & _ & L & _). rewrite X1 in P2. rewrite X2 in P3.
  pose proof (take_seq (map fst pairs) []) as T1. pose proof (take_seq (map snd pairs) []) as T2. simpl in T1, T2. rewrite map_length, L in T1, T2.
  rewrite T1 in P2. rewrite T2 in P3. injection P2 as <-. injection P3 as <-. rewrite P4, !map_map. reflexivity.
Qed.
