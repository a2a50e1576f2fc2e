(** RegPlot: model of the plot methods of the regional classes, with the figure that is drawn (regional_effect.py:205-232,
    regional_effect_ale.py:147-174, 295-322). Regional.v has only the changes of the object and the curve. *)
From Verif Require Import Base Numpy Spec Utils Helpers Integrate Binning GlobalALE GlobalPDP GlobalShap Partition Regional Vis.
Open Scope Qc_scope.
Open Scope list_scope.

(** The figure of the class of the drawn object. *)
Inductive gfigure := FAle (g : ale_figure) | FPdp (g : pdp_figure) | FShap (g : shap_figure).

(** regional_effect_ale.py:168-174, 316-322 (RegionalRHALE.plot and RegionalALE.plot, both build a RHALE object) and
    regional_effect.py:222-232 (the other classes; the arguments that are not passed on have their default values:
    nof_points=30, nof_ice="all" / nof_shap_values="all", show_avg_output=False, use_vectorized=True). *)
Definition drawn_figure (x : externals) (c : rconfig) (st : qstate) (f : nat) (Z : Mat) (E : option Mat)
    (het centering : pyval) (sx sy : option scaling) : res gfigure :=
  match q_kind c with
  | RRHALE _ | RALE =>
      let jac := match q_kind c with RRHALE j => j | _ => None end in
      '(gc, s) <- construct (x_choice x) (KRHALE jac) (as_data c Z) (q_model c) (PyInt (q_nof c)) None E ;;
      m <- match qs_binning st f with None => Raise KeyError | Some m => prep_binning_method m end ;;
      let '(s1, r) := fit gc s [f] m centering in
      _ <- r ;;
      rmap FAle (snd (aplot gc (x_rt x) s1 f het centering sx sy false 0))
  | RPDP =>
      '(gc, s) <- pconstruct (x_choice x) KPDP (as_data c Z) (q_model c) (PyInt 300) None ;;
      rmap FPdp (snd (pplot gc (x_rt x) (x_choice x) s f het centering (PyInt 30) sx sy (PyStr "all") false 0 true))
  | RDerPDP jac =>
      '(gc, s) <- pconstruct (x_choice x) (KDer jac) (as_data c Z) (q_model c) (PyInt 300) None ;;
      rmap FPdp (snd (pplot gc (x_rt x) (x_choice x) s f het centering (PyInt 30) sx sy (PyStr "all") false 0 true))
  | RShap =>
      '(_, gc, s) <- sconstruct (x_choice x) (x_explain x) (x_argsort x) (x_spline x) (as_data c Z) (PyInt 100) None ;;
      rmap FShap (snd (splot gc (x_choice x) s f het centering (PyInt 30) sx sy (PyStr "all") false 0))
  end.
(** scale_x_list[feature] if scale_x_list is not None else None *)
Definition scale_of (scale : option (list scaling)) (f : nat) : res (option scaling) :=
  match scale with None => Ok None | Some l => rmap Some (match nth_error l f with Some s => Ok s | None => Raise IndexError end) end.
(** plot(feature, node_idx, heterogeneity, centering, scale_x_list, scale_y). As in [rplot] feature_names has an entry
    for the feature. *)
Definition rfigure (x : externals) (c : rconfig) (st : qstate) (f node_idx : nat) (het centering : pyval)
    (scale : option (list scaling)) (sy : option scaling) : qstate * res gfigure :=
  match rrefit x c st f with
  | (st1, Raise e) => (st1, Raise e)
  | (st1, Ok _) =>
      match store_scaled x st1 f scale with
      | (st2, Raise e) => (st2, Raise e)
      | (st2, Ok _) =>
          (st2, '(Z, E, _) <- node_info c st2 f node_idx ;;
                sx <- scale_of scale f ;;
                drawn_figure x c st2 f Z E het centering sx sy)
      end
  end.
(** The drawn curve: abscissae and ordinates. *)
Definition curve (g : gfigure) : list Qc * list Qc :=
  match g with FAle a => (af_x a, af_y a) | FPdp p => (pf_x p, pf_y p) | FShap s => (hf_x s, hf_y s) end.
