(** Vis: model of effector/visualization.py and of the plot methods of the global classes
    (global_effect_ale.py:159-235, global_effect_pdp.py:191-261, global_effect_shap.py:250-334): the numbers that
    are handed to matplotlib. Titles, labels, colours and the y-limits are left out. *)
From Verif Require Import Base Numpy Utils Helpers Integrate Binning GlobalALE GlobalPDP GlobalShap.
Open Scope Qc_scope.
Open Scope list_scope.

(** A dict {"mean": ., "std": .} *)
Definition scaling := (Qc * Qc)%type.
Definition sc_mean (s : scaling) : Qc := fst s.
Definition sc_std (s : scaling) : Qc := snd s.

(** visualization.py:10-11  trans_affine *)
Definition trans_affine (x mu std : Qc) : Qc := x * std + mu.
(** visualization.py:14-16  trans_scale *)
Definition trans_scale (x std : Qc) (square : bool) : Qc := if square then x * (std * std) else x * std.
(** visualization.py:19-21  trans_bin; std_x = 0 gives inf or nan. *)
Definition trans_bin (x std_x std_y : Qc) (square : bool) : res Qc :=
  if std_x =? 0 then Raise NonFinite
  else Ok (if square then x * ((std_y / std_x) * (std_y / std_x)) else x * std_y / std_x).

(** [v if scale is None else trans_affine(v, scale["mean"], scale["std"])] and the same with trans_scale *)
Definition affine_opt (s : option scaling) (v : Qc) : Qc :=
  match s with None => v | Some a => trans_affine v (sc_mean a) (sc_std a) end.
Definition scale_opt (s : option scaling) (v : Qc) : Qc :=
  match s with None => v | Some a => trans_scale v (sc_std a) false end.
(** [v if scale_y is None else trans_bin(v, scale_x["std"], scale_y["std"], square)] (visualization.py:77-86):
    None is not subscriptable. *)
Definition bin_opt (sx sy : option scaling) (square : bool) (l : list Qc) : res (list Qc) :=
  match sy with
  | None => Ok l
  | Some b => match sx with
              | None => Raise TypeError
              | Some a => mapM (fun v => trans_bin v (sc_std a) (sc_std b) square) l
              end
  end.
(** the horizontal line of show_avg_output (global_effect_ale.py:216-219, global_effect_pdp.py:240-243,
    global_effect_shap.py:315-318); [avg] is self.avg_output, which is never None (global_effect.py:70-72). *)
Definition avg_line (show_avg : bool) (X : data) (avg : Qc) (sy : option scaling) : option NQ :=
  if show_avg then Some (prep_avg_output X (fun _ => []) (Some avg) (option_map (fun s => (sc_std s, sc_mean s)) sy)) else None.

(** ** ALE and RHALE *)
(** The curve (ax1.plot), the horizontal line, and the bars (ax2.bar): centres, heights, widths, error bars. *)
Record ale_figure := mkAF {
  af_x : list Qc; af_y : list Qc; af_avg : option NQ;
  af_centers : list Qc; af_heights : list Qc; af_widths : list Qc; af_yerr : option (list Qc) }.

(** visualization.py:113-119, 121-134  ale_curve and ale_bins. [error] is the value of prep_confidence_interval: False or a string. *)
Definition ale_bins (rt : Qc -> Qc) (heights var limits dx : list Qc) (error : pyval)
  : list Qc * list Qc * list Qc * option (list Qc) :=
  (midpoints limits, heights, dx, match error with PyBool false => None | _ => Some (map rt var) end).

(** visualization.py:61  the 1000 points of the drawn curve *)
Definition curve_points : nat := Z.to_nat 1000.
(** visualization.py:24-110  ale_plot. [eval] is accum_effect_func(feature, ., True, centering), which may change
    the object. *)
Definition ale_plot {S : Type} (rt : Qc -> Qc) (p : ale_params) (eval : list Qc -> S * res (list Qc * option (list Qc)))
    (error : pyval) (sx sy : option scaling) (avg : option NQ) (st : S) : S * res ale_figure :=
  match (a <- getn (ap_limits p) 0 ;; b <- getn (ap_limits p) (length (ap_limits p) - 1) ;; Ok (linspace a b curve_points)) with
  | Raise e => (st, Raise e)
  | Ok x =>
      let '(st', r) := eval x in
      (st',
       '(y, _) <- r ;;
       var <- bin_opt sx sy true (ap_var p) ;;                                          (* 77-81 *)
       eff <- bin_opt sx sy false (ap_effect p) ;;                                      (* 82-86 *)
       let '(cs, hs, ws, er) := ale_bins rt eff var (map (affine_opt sx) (ap_limits p))
                                  (map (scale_opt sx) (ap_dx p)) error in
       Ok (mkAF (map (affine_opt sx) x) (map (affine_opt sy) y) avg cs hs ws er))
  end.

(** global_effect_ale.py:159-235  ALEBase.plot *)
Definition aplot (c : config) (rt : Qc -> Qc) (st : state) (f : nat) (het centering : pyval)
    (sx sy : option scaling) (show_avg : bool) (avg : Qc) : state * res ale_figure :=
  match (h <- prep_confidence_interval het ;; ce <- prep_centering centering ;; lo <- getn (c_mins c) f ;; Ok (h, ce, lo)) with
  | Raise e => (st, Raise e)
  | Ok (h, ce, lo) =>
      match eval c rt st f [lo] false ce with                                           (* 212-214 *)
      | (st1, Raise e) => (st1, Raise e)
      | (st1, Ok _) =>
          match st_fe st1 f with
          | None => (st1, Raise KeyError)
          | Some (p, _) => ale_plot rt p (fun x => eval c rt st1 f x true ce) h sx sy (avg_line show_avg (c_data c) avg sy) st1
          end
      end
  end.

(** ** PDP and d-PDP *)
(** The curve, the band (lower and upper limit), the ICE curves (the (T, n) matrix whose columns are drawn) and
    the horizontal line. *)
Record pdp_figure := mkPF {
  pf_x : list Qc; pf_y : list Qc; pf_band : option (list Qc * list Qc); pf_ice : option Mat; pf_avg : option NQ }.

(** A plot with NaN is outside the model. *)
Definition finite (l : list NQ) : res (list Qc) := mapM (fun o => match o with Some v => Ok v | None => Raise NonFinite end) l.
(** y -+ w *)
Definition band (ys ws : list Qc) : res (list Qc * list Qc) := lo <- vzip Qcminus ys ws ;; hi <- vzip Qcplus ys ws ;; Ok (lo, hi).
(** [yy[:, idx]] *)
Definition take_cols (yy : Mat) (idx : list nat) : res Mat := mapM (fun r => take r idx) yy.
(** visualization.py:158-161, 210  the columns of the ICE curves that are drawn: [n] is yy.shape[1]. A string other
    than "all" cannot be compared with a number; a negative size is a ValueError of np.random.choice. *)
Definition nof_ice_of (v : pyval) (n : nat) : res (option Z) :=
  match v with
  | PyStr s => if String.eqb s "all" then Ok None else Raise TypeError
  | PyInt z => Ok (Some (if (Z.of_nat n <? z)%Z then Z.of_nat n else z))
  | PyBool b => Ok (Some (if (Z.of_nat n <? (if b then 1 else 0))%Z then Z.of_nat n else (if b then 1 else 0))%Z)
  | _ => Raise TypeError
  end.
Definition ice_columns (choice : nat -> nat -> list nat) (nof : option Z) (n : nat) : res (list nat) :=
  match nof with
  | None => Ok (seq 0 n)
  | Some z => if (z <? 0)%Z then Raise ValueError else Ok (choice n (Z.to_nat z))
  end.

(** visualization.py:137-235  plot_pdp_ice; [yy] is the (T, N) matrix, N = [n]. *)
Definition plot_pdp_ice (rt : Qc -> Qc) (choice : nat -> nat -> list nat) (x : list Qc) (yy : Mat) (n : nat)
    (interval : pyval) (sx sy : option scaling) (avg : option NQ) (is_derivative : bool) (nof_ice : pyval) : res pdp_figure :=
  y0 <- finite (row_means yy) ;;                                                        (* 155 *)
  nof <- nof_ice_of nof_ice n ;;                                                        (* 158-161 *)
  err0 <- finite (row_stds rt yy) ;;                                                    (* 165 *)
  let y := map (fun v => if is_derivative then scale_opt sy v else affine_opt sy v) y0 in     (* 171-180 *)
  let ice := map (map (fun v => if is_derivative then scale_opt sy v else affine_opt sy v)) yy in
  let err := map (scale_opt sy) err0 in
  let str := match interval with PyStr s => s | _ => ""%string end in
  bd <- (if String.eqb str "std" then
           sd <- finite (row_stds rt ice) ;; rmap Some (band y sd)                      (* 189-198 *)
         else if String.eqb str "std_err" then rmap Some (band y err)                   (* 199-207 *)
         else Ok None) ;;
  ic <- (if String.eqb str "ice" then
           cols <- ice_columns choice nof n ;;
           sel <- take_cols ice cols ;;                                                 (* 209 *)
           match sel, cols with                                                         (* [:, 0] *)
           | _, [] => Raise IndexError
           | _, _ => Ok (Some sel)
           end
         else Ok None) ;;
  Ok (mkPF (map (affine_opt sx) x) y bd ic avg).

(** global_effect_pdp.py:191-261  PDPBase.plot: is_derivative is not passed, so it is False for DerPDP too. *)
Definition pplot (c : pconfig) (rt : Qc -> Qc) (choice : nat -> nat -> list nat) (st : pstate) (f : nat) (het centering nof_points : pyval)
    (sx sy : option scaling) (nof_ice : pyval) (show_avg : bool) (avg : Qc) (vec : bool) : pstate * res pdp_figure :=
  match (h <- prep_confidence_interval het ;; ce <- prep_centering centering ;;
         lo <- getn (p_mins c) f ;; hi <- getn (p_maxs c) f ;; n <- pts_of nof_points ;; Ok (h, ce, linspace lo hi n)) with
  | Raise e => (st, Raise e)
  | Ok (h, ce, x) =>
      let '(st1, r) := peval c rt st f x false ce true vec in
      (st1, o <- r ;;
            match o with
            | OAll yy => plot_pdp_ice rt choice x yy (width (length (rows (ps_data st1))) yy) h sx sy
                           (avg_line show_avg (ps_data st1) avg sy) false nof_ice
            | _ => Raise ValueError
            end)
  end.

(** ** SHAP dependence plots *)
Record shap_figure := mkHF {
  hf_x : list Qc; hf_y : list Qc; hf_band : option (list Qc * list Qc); hf_points : option (list Qc * list Qc); hf_avg : option NQ }.

(** [xx if scale is None else trans_affine(xx, ...)] when xx is None (heterogeneity is not "shap_values"): None cannot
    be multiplied (visualization.py:258-265, global_effect_shap.py:301-313). *)
Definition scalable (s : option scaling) (pts : option (list Qc * list Qc)) : res unit :=
  match s, pts with Some _, None => Raise TypeError | _, _ => Ok tt end.
(** visualization.py:238-294  plot_shap *)
Definition plot_shap (x y : list Qc) (pts : option (list Qc * list Qc)) (y_std : list Qc) (het : pyval)
    (sx sy : option scaling) (avg : option NQ) : res shap_figure :=
  _ <- scalable sx pts ;; _ <- scalable sy pts ;;
  let x' := map (affine_opt sx) x in
  let y' := map (affine_opt sy) y in
  let s' := map (scale_opt sy) y_std in
  let str := match het with PyStr s => s | _ => ""%string end in
  bd <- (if String.eqb str "std" then rmap Some (band y' s') else Ok None) ;;
  ps <- (if String.eqb str "shap_values" then
           match pts with
           | None => Raise TypeError
           | Some (xx, yy) =>
               match xx, yy with                                                        (* xx[0], yy[0] *)
               | _ :: _, _ :: _ => Ok (Some (map (affine_opt sx) xx, map (affine_opt sy) yy))
               | _, _ => Raise IndexError
               end
           end
         else Ok None) ;;
  Ok (mkHF x' y' bd ps avg).

(** global_effect_shap.py:250-334  ShapDP.plot. [centering is not False] tests the raw argument (line 307). *)
Definition splot (c : sconfig) (choice : nat -> nat -> list nat) (st : sstate) (f : nat) (het centering nof_points : pyval)
    (sx sy : option scaling) (nof_shap : pyval) (show_avg : bool) (avg : Qc) : sstate * res shap_figure :=
  match (h <- prep_confidence_interval het ;;
         lo <- getn (s_mins c) f ;; hi <- getn (s_maxs c) f ;; n <- spts_of nof_points ;; Ok (h, linspace lo hi n)) with
  | Raise e => (st, Raise e)
  | Ok (h, x) =>
      match seval c st f x false centering with
      | (st1, Raise e) => (st1, Raise e)
      | (st1, Ok (y, _)) =>
          (st1,
           match ss_fe st1 f with
           | None => Raise KeyError
           | Some v =>
               '(_, ind) <- prep_nof_instances choice nof_shap (length (rows (ss_data st1))) ;;   (* 301 *)
               pts <- (match h with
                       | PyStr s =>
                           if String.eqb s "shap_values" then
                             yy <- take (f_yy v) ind ;; xx <- take (f_xx v) ind ;;
                             Ok (Some (xx, match centering with PyBool false => yy | _ => map (fun t => t - f_norm v) yy end))
                           else Ok None
                       | _ => Ok None
                       end) ;;
               plot_shap x y pts (map (f_std v) x) h sx sy (avg_line show_avg (ss_data st1) avg sy)
           end)
      end
  end.
