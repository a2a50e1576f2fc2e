(** GlobalALE: model of effector/global_effect.py and effector/global_effect_ale.py (ALE and RHALE objects).
    Plotting is not modelled here ([plot] calls [eval] and then matplotlib; see Vis.v for the drawn numbers). *)
From Verif Require Import Base Numpy Utils Helpers Integrate Binning.
Open Scope Qc_scope.
Open Scope list_scope.

(** The values of [centering] after helpers.prep_centering (helpers.py:19-27): False, "zero_start", "zero_integral". *)
Inductive cent := NoCent | ZeroStart | ZeroIntegral.
Definition prep_cent (v : pyval) : res cent :=
  w <- prep_centering v ;;
  match w with
  | PyStr s => if String.eqb s "zero_start" then Ok ZeroStart else Ok ZeroIntegral
  | _ => Ok NoCent
  end.
Definition cent_eqb (a b : cent) : bool :=
  match a, b with NoCent, NoCent | ZeroStart, ZeroStart | ZeroIntegral, ZeroIntegral => true | _, _ => false end.

(** ** Objects *)

(** What distinguishes the two classes: RHALE may carry the Jacobian (global_effect_ale.py:451). *)
Inductive kind := KALE | KRHALE (model_jac : option (Mat -> Mat)).

(** The immutable attributes of an object (global_effect.py:60-86, global_effect_ale.py:451-458). avg_output and
    the names are not used by fit/eval and are left out. *)
Record config := mkCfg {
  c_kind : kind; c_data : data; c_model : Mat -> list Qc; c_mins : list Qc; c_maxs : list Qc }.

(** The mutable attributes: data_effect (RHALE), feature_effect["feature_f"] (the fitted parameters and, once
    set, "norm_const"), method_args["feature_f"]["centering"] and is_fitted[f].
    Simplification: feature indices are natural numbers (Python would also accept negative ones). *)
Record state := mkSt {
  st_eff : option Mat;
  st_fe : nat -> option (ale_params * option Qc);
  st_args : nat -> option cent;
  st_fitted : nat -> bool }.

Definition upd {A} (g : nat -> A) (f : nat) (v : A) : nat -> A := fun k => if Nat.eqb k f then v else g k.
Definition set_eff (st : state) (e : Mat) := mkSt (Some e) (st_fe st) (st_args st) (st_fitted st).
Definition set_fe (st : state) (f : nat) (v : ale_params * option Qc) :=
  mkSt (st_eff st) (upd (st_fe st) f (Some v)) (st_args st) (st_fitted st).
Definition set_fitted (st : state) (f : nat) (c : cent) :=
  mkSt (st_eff st) (st_fe st) (upd (st_args st) f (Some c)) (upd (st_fitted st) f true).

(** global_effect.py:57-86  GlobalEffectBase.__init__ : select the rows, default axis limits;
    global_effect_ale.py:15-36  ALEBase.__init__ (passes its arguments on); and global_effect_ale.py:451-463  RHALE.__init__ : the same rows of data_effect. [al]/[E] are the optional
    axis_limits and data_effect arguments. ALE passes nof_instances straight to the base class, RHALE selects
    first and passes "all"; both end up with [data[indices]]. *)
Definition construct (choice : nat -> nat -> list nat) (k : kind) (X : data) (model : Mat -> list Qc)
    (nof : pyval) (al : option (list Qc * list Qc)) (E : option Mat) : res (config * state) :=
  '(_, idx) <- prep_nof_instances choice nof (length (rows X)) ;;
  rs <- select_rows (rows X) idx ;;
  es <- match k, E with
        | KRHALE _, Some e => rmap Some (select_rows e idx)
        | _, _ => Ok None
        end ;;
  let d := mkData (dt X) (dim X) rs in
  '(mins, maxs) <- match al with Some p => Ok p | None => axis_limits_from_data d end ;;
  Ok (mkCfg k d model mins maxs,
      mkSt es (fun _ => None) (fun _ => None) (fun _ => false)).

Section Obj.
Variable c : config.

(** [np.logical_and(data[:, f] >= axis_limits[0, f], data[:, f] <= axis_limits[1, f])]
    (global_effect_ale.py:312-315, 489-492) *)
Definition in_range (lo hi : Qc) (f : nat) (r : list Qc) : bool := (lo <=? nth f r 0) && (nth f r 0 <=? hi).
Definition kept (lo hi : Qc) (f : nat) : data :=
  mkData (dt (c_data c)) (dim (c_data c)) (filter (in_range lo hi f) (rows (c_data c))).
(** [self.data_effect[ind, :]] : boolean indexing, IndexError on a length mismatch. *)
Definition kept_effects (lo hi : Qc) (f : nat) (E : Mat) : res Mat :=
  if Nat.eqb (length E) (length (rows (c_data c)))
  then Ok (map snd (filter (fun p => in_range lo hi f (fst p)) (combine (rows (c_data c)) E)))
  else Raise IndexError.

(** global_effect_ale.py:309-348  ALE._fit_feature.
    np.squeeze of a single-row effect array is a 0-d array and makes np.bincount raise ValueError; the model
    raises the same ValueError from fill_nans, because no bin then holds two points. *)
Definition ale_fit_feature (f : nat) (m : method) : res ale_params :=
  _ <- getcol (c_data c) f ;;
  lo <- getn (c_mins c) f ;; hi <- getn (c_maxs c) f ;;
  let d := kept lo hi f in                                                        (* 312-316 *)
  m' <- match m with                                                              (* 319-324 *)
        | MStr s => if String.eqb s "fixed" then Ok (MFixed 20 (Some 0%nat) 15) else Raise AssertionError
        | MFixed _ _ _ => Ok m
        | _ => Raise AssertionError
        end ;;
  r <- find_limits d None f (c_mins c, c_maxs c) m' ;;                            (* 325 *)
  match r with
  | LFalse => Raise AssertionError                                                (* 329 *)
  | LArr l =>
      let '(l', effs) := compute_local_effects d (c_model c) l f in               (* 339-341, mutates the limits *)
      es <- effs ;;
      compute_ale_params (col (rows d) f) es l'                                   (* 344-346 *)
  end.

(** global_effect_ale.py:473-479  RHALE.compile *)
Definition compile (jac : option (Mat -> Mat)) : res Mat :=
  match jac with
  | Some j => Ok (j (rows (c_data c)))
  | None => compute_jacobian_numerically (c_model c) (c_data c) EPS               (* eps = 1e-8, utils.py:445 *)
  end.

(** global_effect_ale.py:481-518  RHALE._fit_feature, given self.data_effect. *)
Definition rhale_fit_feature (E : Mat) (f : nat) (m : method) : res ale_params :=
  _ <- getcol (c_data c) f ;;
  lo <- getn (c_mins c) f ;; hi <- getn (c_maxs c) f ;;
  let d := kept lo hi f in
  e <- kept_effects lo hi f E ;;
  r <- find_limits d (Some e) f (c_mins c, c_maxs c) m ;;
  match r with
  | LFalse => Raise AssertionError
  | LArr l => compute_ale_params (col (rows d) f) (col e f) l
  end.

(** [self._fit_feature(f, m)] with the caching of data_effect. *)
Definition fit_feature (st : state) (f : nat) (m : method) : state * res ale_params :=
  match c_kind c with
  | KALE => (st, ale_fit_feature f m)
  | KRHALE jac =>
      match match st_eff st with Some e => Ok e | None => compile jac end with
      | Raise e => (st, Raise e)
      | Ok E => (set_eff st E, rhale_fit_feature E f m)
      end
  end.

(** global_effect_ale.py:90-107  _eval_unnorm, without and with the square root of the bin variances.
    [rt] is np.sqrt. *)
Definition eval_unnorm (p : ale_params) (xs : list Qc) : res (list Qc) :=
  compute_accumulated_effect xs (ap_limits p) (ap_effect p) (ap_dx p) false.
Definition eval_heter (rt : Qc -> Qc) (p : ale_params) (xs : list Qc) : res (list Qc) :=
  compute_accumulated_effect xs (ap_limits p) (map rt (ap_var p)) (ap_dx p) false.

(** global_effect_ale.py:51-68  _compute_norm_const; mean_1d_linspace (utils_integrate.py:34-45) applied to a
    function that may raise. *)
Definition compute_norm_const (p : ale_params) (f : nat) (ce : cent) : res Qc :=
  match ce with
  | NoCent => Raise AssertionError                                                (* 52 *)
  | ZeroIntegral =>
      lo <- getn (c_mins c) f ;; hi <- getn (c_maxs c) f ;;
      y <- eval_unnorm p (midpoints (linspace lo hi 100)) ;;
      match np_mean y with Some z => Ok z | None => Raise NonFinite end
  | ZeroStart =>
      lo <- getn (c_mins c) f ;;
      y <- eval_unnorm p [lo] ;;
      match y with [v] => Ok v | _ => Raise ValueError end
  end.

(** helpers.py:7  EMPTY_SYMBOL = 1e8 *)
Definition EMPTY_SYMBOL : Qc := BIG_M.

(** global_effect_ale.py:70-88  one iteration of _fit_loop *)
Definition fit_one (st : state) (f : nat) (m : method) (ce : cent) : state * res unit :=
  match fit_feature st f m with
  | (st1, Raise e) => (st1, Raise e)
  | (st1, Ok p) =>
      let st2 := set_fe st1 f (p, None) in                                        (* 75 *)
      match ce with
      | NoCent => (set_fitted (set_fe st2 f (p, Some EMPTY_SYMBOL)) f ce, Ok tt)  (* 83-88 *)
      | _ => match compute_norm_const p f ce with
             | Raise e => (st2, Raise e)
             | Ok z => (set_fitted (set_fe st2 f (p, Some z)) f ce, Ok tt)        (* 81, 85-88 *)
             end
      end
  end.
Fixpoint fit_loop (st : state) (feats : list nat) (m : method) (ce : cent) : state * res unit :=
  match feats with
  | [] => (st, Ok tt)
  | f :: fs => match fit_one st f m ce with
               | (st', Ok _) => fit_loop st' fs m ce
               | (st', Raise e) => (st', Raise e)
               end
  end.

(** global_effect_ale.py:376-378 (ALE.fit) and 546-557 (RHALE.fit): the admitted binning methods. *)
Definition method_allowed (m : method) : bool :=
  match c_kind c, m with
  | KALE, MStr s => String.eqb s "fixed"
  | KALE, MFixed _ _ _ => true
  | KALE, _ => false
  | KRHALE _, MStr s => String.eqb s "greedy" || String.eqb s "dynamic" || String.eqb s "fixed"
  | KRHALE _, _ => true
  end.
(** global_effect_ale.py:350-380, 520-559  ALE.fit / RHALE.fit; [feats] is the list of features after
    prep_features (helpers.py:10-16). *)
Definition fit (st : state) (feats : list nat) (m : method) (centering : pyval) : state * res unit :=
  if method_allowed m then
    match prep_cent centering with
    | Ok ce => fit_loop st feats m ce
    | Raise e => (st, Raise e)
    end
  else (st, Raise AssertionError).

(** The default value of [binning_method] in fit (global_effect_ale.py:353, 523). *)
Definition default_method : method := MStr (match c_kind c with KALE => "fixed" | KRHALE _ => "greedy" end).

(** global_effect.py:111-120  refit. is_fitted has one entry per feature. *)
Definition refit (st : state) (f : nat) (ce : cent) : res bool :=
  if Nat.ltb f (dim (c_data c)) then
    if negb (st_fitted st f) then Ok true
    else match ce with
         | NoCent => Ok false
         | _ => match st_args st f with
                | None => Raise KeyError
                | Some a => Ok (negb (cent_eqb a ce))
                end
         end
  else Raise IndexError.

(** the part of eval after the refit, global_effect_ale.py:144-157 *)
Definition eval_fitted (rt : Qc -> Qc) (st : state) (f : nat) (xs : list Qc) (het : bool) (ce : cent)
  : res (list Qc * option (list Qc)) :=
  lo <- getn (c_mins c) f ;; hi <- getn (c_maxs c) f ;;
  passert (lo <? hi) ;;                                                           (* 145 *)
  match st_fe st f with
  | None => Raise KeyError
  | Some (p, nc) =>
      y <- eval_unnorm p xs ;;
      h <- (if het then rmap Some (eval_heter rt p xs) else Ok None) ;;
      y' <- match ce with
            | NoCent => Ok y
            | _ => match nc with
                   | None => Raise KeyError
                   | Some z => Ok (map (fun v => v - z) y)                        (* 152-156 *)
                   end
            end ;;
      Ok (y', h)
  end.

(** global_effect_ale.py:109-157  eval *)
Definition eval (rt : Qc -> Qc) (st : state) (f : nat) (xs : list Qc) (het : bool) (centering : pyval)
  : state * res (list Qc * option (list Qc)) :=
  match prep_cent centering with
  | Raise e => (st, Raise e)
  | Ok ce =>
      match refit st f ce with
      | Raise e => (st, Raise e)
      | Ok false => (st, eval_fitted rt st f xs het ce)
      | Ok true =>
          match fit st [f] default_method centering with                          (* 141-142 *)
          | (st', Raise e) => (st', Raise e)
          | (st', Ok _) => (st', eval_fitted rt st' f xs het ce)
          end
      end
  end.

(** ** Histories of calls on one object *)
Inductive call :=
| CallFit (feats : list nat) (m : method) (centering : pyval)
| CallEval (f : nat) (xs : list Qc) (het : bool) (centering : pyval).
Definition step (rt : Qc -> Qc) (st : state) (k : call) : state :=
  match k with
  | CallFit fs m ce => fst (fit st fs m ce)
  | CallEval f xs h ce => fst (eval rt st f xs h ce)
  end.
Definition run (rt : Qc -> Qc) (st : state) (ks : list call) : state := fold_left (step rt) ks st.
End Obj.

(** The state of a freshly constructed object (global_effect.py:79-86); [E] is the user's data_effect. *)
Definition fresh (E : option Mat) : state := mkSt E (fun _ => None) (fun _ => None) (fun _ => false).
