(** Regional: model of effector/regional_effect.py, regional_effect_ale.py, regional_effect_pdp.py and
    regional_effect_shap.py (the five regional classes). What show_partitioning and
    describe_subregions print is in Report.v, what plot draws in RegPlot.v. *)
From Verif Require Import Base Numpy Utils Helpers Integrate Binning GlobalALE GlobalPDP GlobalShap Partition Spec.
Open Scope Qc_scope.
Open Scope list_scope.

(** The external functions: np.sqrt, np.random.choice, shap.Explainer(model, .)(.).values, np.argsort,
    UnivariateSpline, and the formatting of a number in a node name. *)
Record externals := mkX {
  x_rt : Qc -> Qc; x_choice : nat -> nat -> list nat;
  x_explain : Mat -> res Mat; x_argsort : list Qc -> list nat; x_spline : list Qc -> list Qc -> res (Qc -> Qc);
  x_fmt : Qc -> string }.

(** The classes RegionalRHALE, RegionalALE, RegionalPDP, RegionalDerPDP and RegionalShapDP. *)
Inductive rkind :=
| RRHALE (model_jac : option (Mat -> Mat)) | RALE | RPDP | RDerPDP (model_jac : option (Mat -> Mat)) | RShap.

(** The immutable attributes (regional_effect.py:37-73). *)
Record rconfig := mkRC {
  q_kind : rkind; q_data : data; q_model : Mat -> list Qc; q_effects : option Mat;
  q_mins : list Qc; q_maxs : list Qc; q_types : list ftype; q_cat_limit : nat; q_names : list string; q_nof : Z }.

(** regional_effect_ale.py:43-47  RegionalRHALE.__init__ computes the effects of the whole dataset; the other
    classes pass None. *)
Definition initial_effects (k : rkind) (X : data) (model : Mat -> list Qc) (given : option Mat) : res (option Mat) :=
  match k with
  | RRHALE jac =>
      match given, jac with
      | Some e, _ => Ok (Some e)
      | None, Some j => Ok (Some (j (rows X)))
      | None, None => rmap Some (compute_jacobian_numerically model X EPS)
      end
  | _ => Ok None
  end.

(** regional_effect.py:20-86  RegionalEffectBase.__init__; the subclasses only pass a method name and None for what
    they do not take: regional_effect_ale.py:178-213 RegionalALE, regional_effect_pdp.py:12-36 RegionalPDPBase,
    regional_effect_pdp.py:115-136 RegionalPDP, regional_effect_pdp.py:140-162 RegionalDerPDP,
    regional_effect_shap.py:13-76 RegionalShapDP. The axis limits and the feature types come from the
    whole dataset, not from the selected rows. *)
Definition rconstruct (x : externals) (k : rkind) (X : data) (model : Mat -> list Qc) (given : option Mat)
    (nof : pyval) (al : option (list Qc * list Qc)) (types : option (list ftype)) (cat_limit : nat)
    (names : option (list string)) : res rconfig :=
  effects <- initial_effects k X model given ;;
  '(n, idx) <- prep_nof_instances (x_choice x) nof (length (rows X)) ;;                  (* 42-46 *)
  rs <- select_rows (rows X) idx ;;
  es <- match effects with Some e => rmap Some (select_rows e idx) | None => Ok None end ;;
  '(mins, maxs) <- match al with Some p => Ok p | None => axis_limits_from_data X end ;; (* 50-53 *)
  let tys := match types with Some t => t | None => get_feature_types X cat_limit end in (* 56-62 *)
  let nms := match names with Some l => l | None => get_feature_names (length mins) end in (* 65-70 *)
  Ok (mkRC k (mkData (dt X) (dim X) rs) model es mins maxs tys cat_limit nms n).

(** The mutable attributes: is_fitted, tree_full, tree_pruned, partitioners (the Regions object with its splits and
    important splits), tree_full_scaled, tree_pruned_scaled (76-86) and method_args[...]["binning_method"]. A
    tree may be None, hence the double option: the outer one tells whether the key is present. *)
Record qstate := mkQS {
  qs_fitted : nat -> bool;
  qs_full : nat -> option (option tree); qs_pruned : nat -> option (option tree);
  qs_part : nat -> option (regions * found * list split);
  qs_full_scaled : nat -> option (option tree); qs_pruned_scaled : nat -> option (option tree);
  qs_binning : nat -> option method }.
Definition qfresh : qstate :=
  mkQS (fun _ => false) (fun _ => None) (fun _ => None) (fun _ => None) (fun _ => None) (fun _ => None) (fun _ => None).

(** The arguments of fit (regional_effect_ale.py:85-101, 237-249, regional_effect_pdp.py:65-79,
    regional_effect_shap.py:94-106); those a class does not have are ignored. *)
Record fitopts := mkFO {
  fo_drop : Qc; fo_small : Qc; fo_depth : nat; fo_nsplits : nat; fo_minpts : nat; fo_cand : conditioning;
  fo_splitcat : bool; fo_binning : method; fo_centering : pyval; fo_nof : pyval; fo_pts : pyval; fo_vec : bool }.
Definition default_opts (k : rkind) : fitopts :=
  mkFO (Q2Qc (1#10)) (Q2Qc (1#10)) 1 20 10 AllFeatures false
       (match k with RALE => MFixed 20 (Some 0%nat) 15 | _ => MStr "greedy" end)
       (PyBool false) (PyStr "all") (PyInt 100) true.

(** regional_effect_ale.py:325-335  prep_binning_method *)
Definition prep_binning_method (m : method) : res method :=
  match m with
  | MStr s => if String.eqb s "greedy" then Ok Greedy_default
              else if String.eqb s "dp" then Ok DP_default
              else if String.eqb s "fixed" then Ok Fixed_default
              else Raise AssertionError
  | _ => Ok m
  end.

(** [try: a  except: return BIG_M]. A non-finite number is not an exception: it stays outside the model. *)
Definition caught {A} (r : res A) (k : A -> res Qc) : res Qc :=
  match r with
  | Ok a => k a
  | Raise NonFinite => Raise NonFinite
  | Raise _ => Ok BIG_M
  end.
(** np.mean of a vector with possible NaN *)
Definition mean_or_nan (l : list NQ) : res Qc :=
  match l with [] => Raise NonFinite | _ => vs <- mapM (fun o => match o with Some v => Ok v | None => Raise NonFinite end) l ;; Ok (mean vs) end.

Section Reg.
Variable x : externals.
Variable c : rconfig.

(** A (sub)dataset of the object as a data array. *)
Definition as_data (Z : Mat) : data := mkData (dt (q_data c)) (dim (q_data c)) Z.

(** regional_effect_ale.py:64-83, 215-235  the heterogeneity functions of RegionalRHALE and RegionalALE: the
    accumulated standard deviation at the largest value of the feature. *)
Definition heter_ale (k : kind) (f : nat) (m : method) (min_points : nat) (centering : pyval) : heter_func := fun Z E =>
  if Nat.ltb (length Z) min_points then Ok BIG_M else
  '(gc, st) <- construct (x_choice x) k (as_data Z) (q_model c) (PyStr "all") None E ;;
  let '(st1, r) := fit gc st [f] m centering in
  caught r (fun _ =>
    '(_, maxs) <- axis_limits_from_data (as_data Z) ;;
    stop <- getn maxs f ;;
    '(_, z) <- snd (eval gc (x_rt x) st1 f [stop] true (PyBool false)) ;;
    match z with Some [v] => Ok v | _ => Raise ValueError end).

(** regional_effect_pdp.py:38-63  the heterogeneity function of RegionalPDP and RegionalDerPDP: the mean of the
    standard deviation at ten points. *)
Definition heter_pdp (k : pkind) (f : nat) (min_points : nat) (centering nof pts : pyval) (vec : bool) : heter_func := fun Z _ =>
  if Nat.ltb (length Z) min_points then Ok BIG_M else
  '(gc, st) <- pconstruct (x_choice x) k (as_data Z) (q_model c) nof (Some (q_mins c, q_maxs c)) ;;
  let '(st1, r) := pfit gc st [f] centering pts vec in
  caught r (fun _ =>
    '(mins, maxs) <- axis_limits_from_data (as_data Z) ;;
    lo <- getn mins f ;; hi <- getn maxs f ;;
    caught (snd (peval gc (x_rt x) st1 f (linspace lo hi 10) true (PyBool false) false vec)) (fun out =>
      match out with OMeanStd _ z => mean_or_nan z | _ => Raise ValueError end)).

(** regional_effect_shap.py:78-92  the heterogeneity function of RegionalShapDP *)
Definition heter_shap (f : nat) (min_points : nat) (centering pts : pyval) : heter_func := fun Z _ =>
  if Nat.ltb (length Z) min_points then Ok BIG_M else
  '(mins, maxs) <- axis_limits_from_data (as_data Z) ;;
  lo <- getn mins f ;; hi <- getn maxs f ;;
  '(_, gc, st) <- sconstruct (x_choice x) (x_explain x) (x_argsort x) (x_spline x) (as_data Z) (PyInt (q_nof c)) None ;;
  let '(st1, r) := sfit gc st [f] centering pts in
  _ <- r ;;
  '(_, z) <- snd (seval gc st1 f (linspace lo hi 10) true (PyBool false)) ;;
  match z with Some l => Ok (mean l) | None => Raise ValueError end.

(** self._create_heterogeneity_function(...) of the class *)
Definition heter_of (f : nat) (o : fitopts) : res heter_func :=
  match q_kind c with
  | RRHALE jac => m <- prep_binning_method (fo_binning o) ;; Ok (heter_ale (KRHALE jac) f m (fo_minpts o) (fo_centering o))
  | RALE => m <- prep_binning_method (fo_binning o) ;; Ok (heter_ale KALE f m (fo_minpts o) (fo_centering o))
  | RPDP => Ok (heter_pdp KPDP f (fo_minpts o) (fo_centering o) (fo_nof o) (fo_pts o) (fo_vec o))
  | RDerPDP jac => Ok (heter_pdp (KDer jac) f (fo_minpts o) (fo_centering o) (fo_nof o) (fo_pts o) (fo_vec o))
  | RShap => Ok (heter_shap f (fo_minpts o) (fo_centering o) (fo_pts o))
  end.

(** regional_effect.py:88-132  _fit_feature: what the new Regions object computes, *)
Definition partition_of (f : nat) (o : fitopts) : res (regions * found * list split) :=
  h <- heter_of f o ;;
  g <- regions_init f h (q_data c) (q_effects c) (Some (q_types c)) (q_names c) (q_cat_limit c) (fo_cand o)
         (fo_minpts o) (fo_nsplits o) (fo_depth o) (fo_drop o) (fo_small o) (fo_splitcat o) ;;
  fd <- search_all_splits g ;;                                                             (* 123 *)
  Ok (g, fd, choose_important_splits g fd).                                                (* 124 *)
(** a tree of the partition, *)
Definition tree_of (p : regions * found * list split) (only_important : bool) (scale : option (list (Qc * Qc)))
  : res (option tree) :=
  let '(g, fd, imp) := p in splits_to_tree g (x_fmt x) fd imp only_important scale.
(** and the order in which the attributes are set (125-132). *)
Definition rfit_one (st : qstate) (f : nat) (o : fitopts) : qstate * res unit :=
  match partition_of f o with
  | Raise e => (st, Raise e)
  | Ok p =>
      match tree_of p false None with
      | Raise e => (st, Raise e)
      | Ok t1 =>
          let st1 := mkQS (qs_fitted st) (upd (qs_full st) f (Some t1)) (qs_pruned st) (qs_part st)
                       (qs_full_scaled st) (qs_pruned_scaled st) (qs_binning st) in
          match tree_of p true None with
          | Raise e => (st1, Raise e)
          | Ok t2 =>
              if Nat.ltb f (dim (q_data c)) then
                (mkQS (upd (qs_fitted st) f true) (qs_full st1) (upd (qs_pruned st) f (Some t2))
                   (upd (qs_part st) f (Some p)) (qs_full_scaled st) (qs_pruned_scaled st)
                   (upd (qs_binning st) f (Some (fo_binning o))), Ok tt)
              else (mkQS (qs_fitted st) (qs_full st1) (upd (qs_pruned st) f (Some t2))
                      (upd (qs_part st) f (Some p)) (qs_full_scaled st) (qs_pruned_scaled st) (qs_binning st),
                    Raise IndexError)
          end
      end
  end.
(** the loop of fit (regional_effect_ale.py:117-145, 264-293, regional_effect_pdp.py:94-111,
    regional_effect_shap.py:124-153) *)
Fixpoint rfit_loop (st : qstate) (fs : list nat) (o : fitopts) : qstate * res unit :=
  match fs with
  | [] => (st, Ok tt)
  | f :: fs' => match rfit_one st f o with
                | (st', Ok _) => rfit_loop st' fs' o
                | (st', Raise e) => (st', Raise e)
                end
  end.
Definition rfit (st : qstate) (fs : list nat) (o : fitopts) : qstate * res unit :=
  if Nat.leb 2 (fo_minpts o) then rfit_loop st fs o else (st, Raise AssertionError).

(** regional_effect.py:134-136  refit *)
Definition rrefit (st : qstate) (f : nat) : qstate * res unit :=
  if Nat.ltb f (dim (q_data c)) then
    if qs_fitted st f then (st, Ok tt) else rfit st [f] (default_opts (q_kind c))
  else (st, Raise IndexError).

(** regional_effect.py:138-157  get_node_info *)
Definition node_info (st : qstate) (f : nat) (node_idx : nat) : res (Mat * option Mat * string) :=
  if Nat.ltb f (dim (q_data c)) then
    passert (qs_fitted st f) ;;                                                            (* 139 *)
    match qs_pruned st f with
    | None => Raise KeyError
    | Some None => Raise AssertionError                                                    (* 140 *)
    | Some (Some t0) =>
        t <- match qs_pruned_scaled st f with                                              (* 142-145 *)
             | None => Ok t0
             | Some (Some t) => Ok t
             | Some None => Raise AttributeError                                           (* None.nodes *)
             end ;;
        match find (fun n => Nat.eqb (n_idx n) node_idx) t with                            (* 148-151 *)
        | None => Raise AssertionError
        | Some n => Ok (n_data n, n_effect n, n_name n)
        end
    end
  else Raise IndexError.

(** The result of eval: of the ALE/RHALE/ShapDP classes, and of the PDP classes. *)
Inductive gout := GCurve (y : list Qc) (h : option (list Qc)) | GPdp (o : pout).

(** regional_effect.py:159-171  _create_fe_object followed by .eval(feature, xs, heterogeneity, centering): the
    constructors use their default nof_instances ("all" for ALE and RHALE, 300 for PDP and DerPDP, 100 for
    ShapDP) and their default axis limits. *)
Definition fe_eval (Z : Mat) (E : option Mat) (f : nat) (xs : list Qc) (het : bool) (centering : pyval) : res gout :=
  match q_kind c with
  | RRHALE jac =>
      '(gc, st) <- construct (x_choice x) (KRHALE jac) (as_data Z) (q_model c) (PyStr "all") None E ;;
      r <- snd (eval gc (x_rt x) st f xs het centering) ;; Ok (GCurve (fst r) (snd r))
  | RALE =>
      '(gc, st) <- construct (x_choice x) KALE (as_data Z) (q_model c) (PyStr "all") None None ;;
      r <- snd (eval gc (x_rt x) st f xs het centering) ;; Ok (GCurve (fst r) (snd r))
  | RPDP =>
      '(gc, st) <- pconstruct (x_choice x) KPDP (as_data Z) (q_model c) (PyInt 300) None ;;
      r <- snd (peval gc (x_rt x) st f xs het centering false true) ;; Ok (GPdp r)
  | RDerPDP jac =>
      '(gc, st) <- pconstruct (x_choice x) (KDer jac) (as_data Z) (q_model c) (PyInt 300) None ;;
      r <- snd (peval gc (x_rt x) st f xs het centering false true) ;; Ok (GPdp r)
  | RShap =>
      '(_, gc, st) <- sconstruct (x_choice x) (x_explain x) (x_argsort x) (x_spline x) (as_data Z) (PyInt 100) None ;;
      r <- snd (seval gc st f xs het centering) ;; Ok (GCurve (fst r) (snd r))
  end.

(** regional_effect.py:173-200  eval *)
Definition reval (st : qstate) (f node_idx : nat) (xs : list Qc) (het : bool) (centering : pyval) : qstate * res gout :=
  match rrefit st f with
  | (st', Raise e) => (st', Raise e)
  | (st', Ok _) =>
      (st', ce <- prep_centering centering ;;
            '(Z, E, _) <- node_info st' f node_idx ;;
            fe_eval Z E f xs het ce)
  end.

(** regional_effect.py:216-218, regional_effect_ale.py:160-162, 308-310  the trees computed by plot for a given
    scale_x_list. *)
Definition store_scaled (st : qstate) (f : nat) (scale : option (list (Qc * Qc))) : qstate * res unit :=
  match scale with
  | None => (st, Ok tt)
  | Some _ =>
      match qs_part st f with
      | None => (st, Raise KeyError)
      | Some p =>
          match tree_of p false scale with
          | Raise e => (st, Raise e)
          | Ok t1 =>
              let st1 := mkQS (qs_fitted st) (qs_full st) (qs_pruned st) (qs_part st)
                           (upd (qs_full_scaled st) f (Some t1)) (qs_pruned_scaled st) (qs_binning st) in
              match tree_of p true scale with
              | Raise e => (st1, Raise e)
              | Ok t2 => (mkQS (qs_fitted st) (qs_full st) (qs_pruned st) (qs_part st)
                            (qs_full_scaled st1) (upd (qs_pruned_scaled st) f (Some t2)) (qs_binning st), Ok tt)
              end
          end
      end
  end.

(** regional_effect_ale.py:168-174, 316-322  the object that RegionalRHALE.plot *and* RegionalALE.plot draw: a
    RHALE object fitted with the binning method of the last fit. The other classes draw the object of
    _create_fe_object (regional_effect.py:220-232). [xs], [het], [ce]: where and how the object is evaluated
    (by its plot method). *)
Definition drawn_curve (st : qstate) (f : nat) (Z : Mat) (E : option Mat) (xs : list Qc) (het : bool) (centering : pyval) : res gout :=
  match q_kind c with
  | RRHALE _ | RALE =>
      let jac := match q_kind c with RRHALE j => j | _ => None end in
      '(gc, s) <- construct (x_choice x) (KRHALE jac) (as_data Z) (q_model c) (PyInt (q_nof c)) None E ;;
      m <- match qs_binning st f with None => Raise KeyError | Some m => prep_binning_method m end ;;
      let '(s1, r) := fit gc s [f] m centering in
      _ <- r ;;
      r <- snd (eval gc (x_rt x) s1 f xs het centering) ;; Ok (GCurve (fst r) (snd r))
  | _ => fe_eval Z E f xs het centering
  end.
(** regional_effect.py:205-232, regional_effect_ale.py:147-174, 295-322  plot: the new state and the curve drawn at [xs]. Simplification: the drawing itself is not included here and
    feature_names has an entry for the feature. *)
Definition rplot (st : qstate) (f node_idx : nat) (xs : list Qc) (het : bool) (centering : pyval)
    (scale : option (list (Qc * Qc))) : qstate * res gout :=
  match rrefit st f with
  | (st1, Raise e) => (st1, Raise e)
  | (st1, Ok _) =>
      match store_scaled st1 f scale with
      | (st2, Raise e) => (st2, Raise e)
      | (st2, Ok _) => (st2, '(Z, E, _) <- node_info st2 f node_idx ;; drawn_curve st2 f Z E xs het centering)
      end
  end.

(** ** Histories of calls on one object *)
Inductive qcall :=
| QFit (fs : list nat) (o : fitopts)
| QEval (f node_idx : nat) (xs : list Qc) (het : bool) (centering : pyval)
| QPlot (f node_idx : nat) (xs : list Qc) (het : bool) (centering : pyval) (scale : option (list (Qc * Qc))).
Definition qstep (st : qstate) (k : qcall) : qstate :=
  match k with
  | QFit fs o => fst (rfit st fs o)
  | QEval f n xs h ce => fst (reval st f n xs h ce)
  | QPlot f n xs h ce s => fst (rplot st f n xs h ce s)
  end.
Definition qrun (st : qstate) (ks : list qcall) : qstate := fold_left qstep ks st.
End Reg.
