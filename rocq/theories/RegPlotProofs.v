(** RegPlotProofs: the figure of a regional plot against the regional eval. *)
From Verif Require Import Base Numpy Spec NumpyFacts Utils Helpers HelpersProofs Binning GlobalALE ALEState GlobalPDP GlobalShap
  PartSpec Partition Regional RegProofs RegNodes PlotSpec Vis VisProofs RegPlot.
Open Scope Qc_scope.
Open Scope list_scope.
Local Opaque curve_points.

(** The average effect in the result of eval. *)
Definition effect (g : gout) : list NQ :=
  match g with GCurve y _ => map Some y | GPdp (OMean y) => y | GPdp (OMeanStd y _) => y | GPdp (OAll _) => [] end.
(** The same environment, with other random draws. *)
Definition with_choice (x : externals) (ch : nat -> nat -> list nat) : externals :=
  mkX (x_rt x) ch (x_explain x) (x_argsort x) (x_spline x) (x_fmt x).
(** The instances of the node that [plot] and [eval] address. *)
Definition node_rows (c : rconfig) (st : qstate) (f node_idx : nat) (Z : Mat) (E : option Mat) : Prop :=
  exists nm, node_info c st f node_idx = Ok (Z, E, nm).

Lemma rfigure_inv x c st f n het cv scale sy st' fig : rfigure x c st f n het cv scale sy = (st', Ok fig) ->
  exists Z E sx, node_rows c st' f n Z E /\ scale_of scale f = Ok sx /\ drawn_figure x c st' f Z E het cv sx sy = Ok fig /\
  (f < dim (q_data c))%nat /\ qs_fitted st' f = true.
Proof.
  intros H. unfold rfigure in H. destruct (rrefit x c st f) as [st1 [u|]]; [|discriminate]. destruct (store_scaled x st1 f scale) as [st2 [u2|]]; [|discriminate].
  injection H as -> H. apply bind_ok in H as ([[Z E] nm] & H1 & H). apply bind_ok in H as (sx & H2 & H). exists Z, E, sx. split; [now exists nm|]. split; [exact H2|]. split; [exact H|].
  unfold node_info in H1. destruct (Nat.ltb_spec f (dim (q_data c))) as [L|L]; [|discriminate]. split; [exact L|]. destruct (qs_fitted st' f); [reflexivity|discriminate].
Qed.
Lemma reval_node x c st f n Z E xs het cv : node_rows c st f n Z E -> (f < dim (q_data c))%nat -> qs_fitted st f = true ->
  reval x c st f n xs het cv = (st, ce <- prep_centering cv ;; fe_eval x c Z E f xs het ce).
Proof.
  intros [nm HN] Hf F. unfold reval, rrefit. rewrite (proj2 (Nat.ltb_lt _ _) Hf), F. f_equal. destruct (prep_centering cv); [|reflexivity]. cbn [bind]. now rewrite HN.
Qed.
Lemma scale_of_rescale scale f sx : scale_of scale f = Ok sx -> sx = match scale with None => None | Some l => nth_error l f end.
Proof. destruct scale as [l|]; simpl; [|congruence]. destruct (nth_error l f) as [s|]; simpl; congruence. Qed.
Lemma prep_cent_centering cv ce : prep_cent cv = Ok ce -> exists w, prep_centering cv = Ok w.
Proof. unfold prep_cent. destruct (prep_centering cv) as [w|]; [now exists w|discriminate]. Qed.
Lemma pconstruct_mins choice k X model gc s : pconstruct choice k X model (PyStr "all") None = Ok (gc, s) -> axis_limits_from_data X = Ok (p_mins gc, p_maxs gc).
Proof.
  unfold pconstruct. simpl prep_nof_instances. cbn [bind]. rewrite select_rows_all. cbn [bind].
  change (mkData (dt X) (dim X) (rows X)) with (mkData (dt X) (dim X) (rows X)). destruct X as [t d r]. simpl.
  destruct (axis_limits_from_data _) as [[a b]|]; [|discriminate]. intros H. now injection H as <- <-.
Qed.
Lemma sconstruct_mins choice ex ar sp X i gc s : sconstruct choice ex ar sp X (PyStr "all") None = Ok (i, gc, s) -> axis_limits_from_data X = Ok (s_mins gc, s_maxs gc).
Proof.
  unfold sconstruct. simpl prep_nof_instances. cbn [bind]. rewrite select_rows_all. cbn [bind]. simpl prep_nof_instances. cbn [bind]. rewrite select_rows_all. cbn [bind]. destruct X as [t d r]. simpl.
  destruct (axis_limits_from_data _) as [[a b]|]; [|discriminate]. intros H. now injection H as <- <- <-.
Qed.
(** [lo] and [hi]: the extrema of the feature in the instances. *)
Definition extrema (Z : Mat) (f : nat) (lo hi : Qc) : Prop :=
  (forall r, In r Z -> lo <= r@f <= hi) /\ (exists r, In r Z /\ r@f = lo) /\ (exists r, In r Z /\ r@f = hi).
Lemma limits_extrema X mins maxs f : axis_limits_from_data X = Ok (mins, maxs) -> (f < dim X)%nat -> extrema (rows X) f mins@f maxs@f.
Proof.
  intros H Hf. assert (NE : rows X <> []).
  { intros E. unfold axis_limits_from_data in H. rewrite E in H. apply bind_ok in H as (a & H & _). destruct (dim X); [lia|]. simpl in H. discriminate. }
  destruct (axis_limits_ok X NE) as (m1 & m2 & E & _ & _ & B). rewrite H in E. injection E as <- <-. exact (B f Hf).
Qed.

(** PDP, d-PDP and SHAP-DP. *)
Lemma pdp_case x c Z k f het cv sx sy choice' fig : (length Z <= 300)%nat -> (f < dim (q_data c))%nat ->
  ('(gc, s) <- pconstruct (x_choice x) k (as_data c Z) (q_model c) (PyInt 300) None ;;
   rmap FPdp (snd (pplot gc (x_rt x) (x_choice x) s f het cv (PyInt 30) sx sy (PyStr "all") false 0 true))) = Ok fig ->
  exists lo hi ys ce, extrema Z f lo hi /\ curve fig = (map (rescale sx) (linspace lo hi 30), map (rescale sy) ys) /\ prep_centering cv = Ok ce /\
  ('(gc, s) <- pconstruct choice' k (as_data c Z) (q_model c) (PyInt 300) None ;;
   r <- snd (peval gc (x_rt x) s f (linspace lo hi 30) false ce false true) ;; Ok (GPdp r)) = Ok (GPdp (OMean (map Some ys))).
Proof.
  intros LZ Hf H. change 300%Z with (Z.of_nat 300) in *. rewrite pconstruct_nof in H by exact LZ. apply bind_ok in H as ([gc s] & HC & H).
  destruct (pplot gc (x_rt x) (x_choice x) s f het cv (PyInt 30) sx sy (PyStr "all") false 0 true) as [s' [g|]] eqn:P; [|discriminate]. injection H as <-.
  destruct (pplot_spec _ _ _ _ _ _ _ _ _ _ _ _ _ _ _ _ P) as (h & n & yy & ys & ws & _ & N & _ & H2 & H3 & _ & H4 & H5 & _).
  injection N as <-. simpl Z.to_nat in *. change (Pos.to_nat 30) with 30%nat in *. exists ((p_mins gc)@f), ((p_maxs gc)@f), ys.
  destruct (prep_centering cv) as [ce|] eqn:PC.
  2:{ unfold peval, prep_cent in H2. rewrite PC in H2. discriminate. }
  exists ce. split; [exact (limits_extrema _ _ _ f (pconstruct_mins _ _ _ _ _ _ HC) Hf)|]. split; [simpl; now rewrite H4, H5|]. split; [reflexivity|].
  rewrite pconstruct_nof by exact LZ. assert (HC' : pconstruct choice' k (as_data c Z) (q_model c) (PyStr "all") None = Ok (gc, s)) by exact HC.
  rewrite HC'. cbn [bind]. rewrite (peval_prep _ _ _ _ _ _ _ _ _ _ PC). destruct (peval_all gc (x_rt x) s f _ false cv true s' yy H2) as [H6 _]. rewrite H6. cbn [bind snd]. now rewrite H3.
Qed.
Lemma shap_case x c Z f het cv sx sy choice' fig : (length Z <= 100)%nat -> (f < dim (q_data c))%nat ->
  ('(_, gc, s) <- sconstruct (x_choice x) (x_explain x) (x_argsort x) (x_spline x) (as_data c Z) (PyInt 100) None ;;
   rmap FShap (snd (splot gc (x_choice x) s f het cv (PyInt 30) sx sy (PyStr "all") false 0))) = Ok fig ->
  exists lo hi ys ce, extrema Z f lo hi /\ curve fig = (map (rescale sx) (linspace lo hi 30), map (rescale sy) ys) /\ prep_centering cv = Ok ce /\
  ('(_, gc, s) <- sconstruct choice' (x_explain x) (x_argsort x) (x_spline x) (as_data c Z) (PyInt 100) None ;;
   r <- snd (seval gc s f (linspace lo hi 30) false ce) ;; Ok (GCurve (fst r) (snd r))) = Ok (GCurve ys None).
Proof.
  intros LZ Hf H. change 100%Z with (Z.of_nat 100) in *. rewrite sconstruct_nof in H by exact LZ. apply bind_ok in H as ([[i gc] s] & HC & H).
  destruct (splot gc (x_choice x) s f het cv (PyInt 30) sx sy (PyStr "all") false 0) as [s' [g|]] eqn:P; [|discriminate]. injection H as <-.
  destruct (splot_spec _ _ _ _ _ _ _ _ _ _ _ _ _ _ P) as (h & n & v & ys & _ & N & _ & H2 & H4 & H5 & _).
  injection N as <-. simpl Z.to_nat in *. change (Pos.to_nat 30) with 30%nat in *. exists ((s_mins gc)@f), ((s_maxs gc)@f), ys.
  destruct (prep_centering cv) as [ce|] eqn:PC.
  2:{ unfold seval, prep_cent in H2. rewrite PC in H2. discriminate. }
  exists ce. split; [exact (limits_extrema _ _ _ f (sconstruct_mins _ _ _ _ _ _ _ _ HC) Hf)|]. split; [simpl; now rewrite H4, H5|]. split; [reflexivity|].
  rewrite sconstruct_nof by exact LZ. assert (HC' : sconstruct choice' (x_explain x) (x_argsort x) (x_spline x) (as_data c Z) (PyStr "all") None = Ok (i, gc, s)) by exact HC.
  rewrite HC'. cbn [bind]. rewrite (seval_prep _ _ _ _ _ _ _ PC). rewrite H2. reflexivity.
Qed.
Lemma figure_eval x c st f n het cv scale sy st' fig choice' : (forall jac, q_kind c <> RRHALE jac) -> q_kind c <> RALE ->
  rfigure x c st f n het cv scale sy = (st', Ok fig) ->
  (forall Z E, node_rows c st' f n Z E -> kept_entirely (q_kind c) (length Z)) ->
  exists Z E lo hi ys g, node_rows c st' f n Z E /\ extrema Z f lo hi /\
    curve fig = (map (rescale (match scale with None => None | Some l => nth_error l f end)) (linspace lo hi 30), map (rescale sy) ys) /\
    reval (with_choice x choice') c st' f n (linspace lo hi 30) false cv = (st', Ok g) /\ effect g = map Some ys.
Proof.
  intros K1 K2 H KE. destruct (rfigure_inv _ _ _ _ _ _ _ _ _ _ _ H) as (Z & E & sx & HN & HS & HD & Hf & FT).
  specialize (KE Z E HN). apply scale_of_rescale in HS. change scaling with (Qc * Qc)%type in *. subst sx. set (sx := match scale with None => None | Some l => nth_error l f end) in *. unfold drawn_figure in HD.
  assert (RV : forall xs hh, reval (with_choice x choice') c st' f n xs hh cv = (st', ce <- prep_centering cv ;; fe_eval (with_choice x choice') c Z E f xs hh ce)) by (intros; now apply reval_node).
  unfold fe_eval in RV. destruct (q_kind c) as [jac| | |jac|]; [now destruct (K1 jac)|congruence| | |]; simpl in KE.
  - destruct (pdp_case x c Z KPDP f het cv sx sy choice' fig KE Hf HD) as (lo & hi & ys & ce & A1 & A2 & A3 & A4). exists Z, E, lo, hi, ys, (GPdp (OMean (map Some ys))).
    split; [exact HN|]. split; [exact A1|]. split; [exact A2|]. split; [|reflexivity]. rewrite RV, A3. cbn [bind]. f_equal. exact A4.
  - destruct (pdp_case x c Z (KDer jac) f het cv sx sy choice' fig KE Hf HD) as (lo & hi & ys & ce & A1 & A2 & A3 & A4). exists Z, E, lo, hi, ys, (GPdp (OMean (map Some ys))).
    split; [exact HN|]. split; [exact A1|]. split; [exact A2|]. split; [|reflexivity]. rewrite RV, A3. cbn [bind]. f_equal. exact A4.
  - destruct (shap_case x c Z f het cv sx sy choice' fig KE Hf HD) as (lo & hi & ys & ce & A1 & A2 & A3 & A4). exists Z, E, lo, hi, ys, (GCurve ys None).
    split; [exact HN|]. split; [exact A1|]. split; [exact A2|]. split; [|reflexivity]. rewrite RV, A3. cbn [bind]. f_equal. exact A4.
Qed.

(** ALE and RHALE *)
Lemma construct_fresh choice k X model nof al E gc s : construct choice k X model nof al E = Ok (gc, s) -> exists e, s = fresh e.
Proof.
  unfold construct. intros H. apply bind_ok in H as ([z idx] & _ & H). apply bind_ok in H as (rs & _ & H). apply bind_ok in H as (es & _ & H).
  apply bind_ok in H as ([a b] & _ & H). injection H as _ <-. now exists es.
Qed.
Lemma construct_nof choice choice' k X model n al E : (Z.of_nat (length (rows X)) <= n)%Z ->
  construct choice k X model (PyInt n) al E = construct choice' k X model (PyStr "all") al E.
Proof. intros L. unfold construct. simpl. destruct (Z.ltb_spec n (Z.of_nat (length (rows X)))); [lia|]. reflexivity. Qed.
Lemma drawn_ale x c st f Z E het cv sx sy fig : (q_kind c = RALE \/ exists j, q_kind c = RRHALE j) -> drawn_figure x c st f Z E het cv sx sy = Ok fig ->
  exists gc s m m' s1 u s2 a b ys hs,
    let grid := linspace a b curve_points in
    construct (x_choice x) (KRHALE (match q_kind c with RRHALE j => j | _ => None end)) (as_data c Z) (q_model c) (PyInt (q_nof c)) None E = Ok (gc, s) /\
    qs_binning st f = Some m /\ prep_binning_method m = Ok m' /\ fit gc s [f] m' cv = (s1, Ok u) /\
    eval gc (x_rt x) s1 f grid true cv = (s2, Ok (ys, hs)) /\ curve fig = (map (rescale sx) grid, map (rescale sy) ys).
Proof.
  intros K H. unfold drawn_figure in H.
  assert (H' : ('(gc, s) <- construct (x_choice x) (KRHALE (match q_kind c with RRHALE j => j | _ => None end)) (as_data c Z) (q_model c) (PyInt (q_nof c)) None E ;;
      m <- match qs_binning st f with None => Raise KeyError | Some m => prep_binning_method m end ;;
      let '(s1, r) := fit gc s [f] m cv in _ <- r ;; rmap FAle (snd (aplot gc (x_rt x) s1 f het cv sx sy false 0))) = Ok fig) by (destruct K as [K | [j K]]; rewrite K in *; exact H).
  clear H. apply bind_ok in H' as ([gc s] & HC & H). apply bind_ok in H as (m' & HM & H). destruct (fit gc s [f] m' cv) as [s1 [u|]] eqn:HF; [|discriminate]. cbn [bind] in H.
  destruct (aplot gc (x_rt x) s1 f het cv sx sy false 0) as [s2 [g|]] eqn:P; [|discriminate]. cbn [rmap bind snd] in H. injection H as <-.
  destruct (construct_fresh _ _ _ _ _ _ _ _ _ HC) as [e ->].
  assert (I : inv gc s1) by (change s1 with (fst (s1, Ok u)); rewrite <- HF; apply fit_inv, inv_fresh).
  destruct (aplot_spec _ _ _ _ _ _ _ _ _ _ _ _ I P) as (h & ce & p & nc & ys & hs & _ & _ & _ & _ & H1 & _ & H2 & H3 & _).
  destruct (qs_binning st f) as [m|]; [|discriminate].
  exists gc, (fresh e), m, m', s1, u, s2, ((ap_limits p)@0), ((ap_limits p)@(length (ap_limits p) - 1)), ys, (Some hs). cbv zeta.
  split; [exact HC|]. split; [reflexivity|]. split; [exact HM|]. split; [exact HF|]. split; [exact H1|]. simpl. now rewrite H2, H3.
Qed.
Lemma fit_then_eval c rt s f m cv s1 u xs h : fit c s [f] m cv = (s1, Ok u) -> (f < dim (c_data c))%nat -> st_fitted s f = false ->
  fit c s [f] (default_method c) cv = (s1, Ok u) -> eval c rt s1 f xs h cv = eval c rt s f xs h cv.
Proof.
  intros F Hf NF FD. unfold eval. destruct (prep_cent cv) as [ce|] eqn:PC; [|unfold fit in F; rewrite PC in F; destruct (method_allowed c m); discriminate].
  unfold refit. rewrite (proj2 (Nat.ltb_lt _ _) Hf), NF. simpl negb. cbn iota. rewrite FD.
  assert (A : st_args s1 f = Some ce /\ st_fitted s1 f = true).
  { unfold fit in F. rewrite PC in F. destruct (method_allowed c m); [|discriminate]. simpl in F.
    destruct (fit_one c s f m ce) as [s2 [u2|e2]] eqn:E; [|discriminate]. injection F as -> _. apply ALEState.fit_one_ok in E as (s3 & p & z & _ & _ & A & B & _). now split. }
  destruct A as [A1 A2]. rewrite A2, A1. destruct ce; reflexivity.
Qed.
(** The binning method that fit uses by default in a RHALE object, as an object. *)
Definition eval_binning : method := MGreedy 100 (Some 0%nat) (Q2Qc (3#10)) 15.
Lemma greedy_same c jac s f cv : c_kind c = KRHALE jac -> fit c s [f] eval_binning cv = fit c s [f] (default_method c) cv.
Proof.
  intros K. unfold fit, default_method, method_allowed. rewrite K. simpl. destruct (prep_cent cv) as [ce|]; [|reflexivity].
  unfold fit_one, fit_feature. rewrite K. reflexivity.
Qed.
Lemma construct_kind choice k X model nof al E gc s : construct choice k X model nof al E = Ok (gc, s) -> c_kind gc = k /\ dim (c_data gc) = dim X.
Proof.
  unfold construct. intros H. apply bind_ok in H as ([z idx] & _ & H). apply bind_ok in H as (rs & _ & H). apply bind_ok in H as (es & _ & H).
  apply bind_ok in H as ([a b] & _ & H). injection H as <- _. now split.
Qed.
Lemma rhale_eval x c st f n het cv scale sy st' fig choice' jac : q_kind c = RRHALE jac ->
  rfigure x c st f n het cv scale sy = (st', Ok fig) ->
  (forall Z E, node_rows c st' f n Z E -> (Z.of_nat (length Z) <= q_nof c)%Z) -> qs_binning st' f = Some eval_binning ->
  exists a b ys g, let grid := linspace a b 1000 in
    curve fig = (map (rescale (match scale with None => None | Some l => nth_error l f end)) grid, map (rescale sy) ys) /\
    reval (with_choice x choice') c st' f n grid true cv = (st', Ok g) /\ effect g = map Some ys.
Proof.
  intros K H KE BM. destruct (rfigure_inv _ _ _ _ _ _ _ _ _ _ _ H) as (Z & E & sx & HN & HS & HD & Hf & FT).
  specialize (KE Z E HN). apply scale_of_rescale in HS. change scaling with (Qc * Qc)%type in *. subst sx. set (sx := match scale with None => None | Some l => nth_error l f end) in *.
  destruct (drawn_ale x c st' f Z E het cv sx sy fig (or_intror (ex_intro _ jac K)) HD) as (gc & s & m & m' & s1 & u & s2 & a & b & ys & hs & HC & HB & HP & HF & HE & CV).
  rewrite BM in HB. injection HB as <-. injection HP as <-. exists a, b, ys, (GCurve ys hs). cbv zeta. change 1000%nat with curve_points. split; [exact CV|].
  rewrite (reval_node _ _ _ _ _ _ _ _ _ _ HN Hf FT). split; [|reflexivity]. f_equal.
  assert (PC : exists ce, prep_centering cv = Ok ce).
  { unfold fit in HF. destruct (prep_cent cv) as [ce|] eqn:PC; [now apply prep_cent_centering in PC|]. destruct (method_allowed gc eval_binning); discriminate. }
  destruct PC as [ce PC]. rewrite PC. cbn [bind]. unfold fe_eval. rewrite K in *. rewrite (construct_nof _ choice') in HC by exact KE.
  simpl x_choice. rewrite HC. cbn [bind]. rewrite (eval_prep _ _ _ _ _ _ _ _ PC). destruct (construct_fresh _ _ _ _ _ _ _ _ _ HC) as [e ->]. destruct (construct_kind _ _ _ _ _ _ _ _ _ HC) as [CK CD].
  rewrite <- (fit_then_eval gc (x_rt x) (fresh e) f eval_binning cv s1 u _ true HF ltac:(rewrite CD; exact Hf) eq_refl (eq_trans (eq_sym (greedy_same gc jac (fresh e) f cv CK)) HF)).
  simpl x_rt. rewrite HE. reflexivity.
Qed.
