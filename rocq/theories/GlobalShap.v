(** GlobalShap: model of effector/global_effect_shap.py (ShapDP objects) on top of effector/global_effect.py.
    The external packages are oracles: [s_explain] is [shap.Explainer(model, data)(data).values], [s_argsort] is
    np.argsort and [s_spline] is scipy's UnivariateSpline(x, y), a function evaluated point by point; the first
    and the last may raise. Simplification: the explainer is a function of the data (the real one may sample). *)
From Verif Require Import Base Numpy Utils Helpers GlobalALE.
Open Scope Qc_scope.
Open Scope list_scope.

(** np.trapz(y, x) (global_effect_shap.py:133): the sum of (x_{i+1} - x_i) (y_i + y_{i+1}) / 2. *)
Fixpoint trapz_from (x0 y0 : Qc) (pts : list (Qc * Qc)) : Qc :=
  match pts with
  | [] => 0
  | (x1, y1) :: pts' => (x1 - x0) * (y0 + y1) / Q2Qc 2 + trapz_from x1 y1 pts'
  end.
Definition trapz (ys xs : list Qc) : Qc :=
  match combine xs ys with [] => 0 | (x0, y0) :: pts => trapz_from x0 y0 pts end.

(** Immutable attributes (global_effect.py:60-86). *)
Record sconfig := mkSC {
  s_explain : Mat -> res Mat; s_argsort : list Qc -> list nat; s_spline : list Qc -> list Qc -> res (Qc -> Qc);
  s_mins : list Qc; s_maxs : list Qc }.

(** feature_effect["feature_f"] (global_effect_shap.py:139-146) *)
Record fitted_shap := mkFS { f_mean : Qc -> Qc; f_std : Qc -> Qc; f_xx : list Qc; f_yy : list Qc; f_norm : Qc }.

(** Mutable attributes: self.data (overwritten by _fit_feature), feature_effect, method_args[...]["centering"],
    is_fitted. *)
Record sstate := mkSS {
  ss_data : data; ss_fe : nat -> option fitted_shap; ss_args : nat -> option cent; ss_fitted : nat -> bool }.
Definition sfresh (X : data) : sstate := mkSS X (fun _ => None) (fun _ => None) (fun _ => false).

(** global_effect_shap.py:88-95  ShapDP.__init__: selects the rows, then the base class selects [nof_instances]
    rows of the selection again (global_effect.py:60-63). The result carries the attribute [indices] as well:
    the base class overwrites the one of line 88. *)
Definition sconstruct (choice : nat -> nat -> list nat) explain argsort spline (X : data)
    (nof : pyval) (al : option (list Qc * list Qc)) : res (list nat * sconfig * sstate) :=
  '(_, idx) <- prep_nof_instances choice nof (length (rows X)) ;;
  rs <- select_rows (rows X) idx ;;                                                  (* 88-91 *)
  '(_, idx2) <- prep_nof_instances choice nof (length rs) ;;
  rs2 <- select_rows rs idx2 ;;                                                      (* global_effect.py:60-65 *)
  let d := mkData (dt X) (dim X) rs2 in
  '(mins, maxs) <- match al with Some p => Ok p | None => axis_limits_from_data d end ;;
  Ok (idx2, mkSC explain argsort spline mins maxs, sfresh d).

Section SObj.
Variable c : sconfig.

(** [np.linspace(xx[0], xx[-1], points_for_centering)] (line 131): as for PDP objects, a negative count is a
    ValueError and a non-integer a TypeError. *)
Definition spts_of (v : pyval) : res nat :=
  match v with
  | PyInt z => if (z <? 0)%Z then Raise ValueError else Ok (Z.to_nat z)
  | PyBool b => Ok (if b then 1%nat else 0%nat)
  | _ => Raise TypeError
  end.

(** global_effect_shap.py:129-137  the normalisation constant. A zero range makes numpy divide by zero. *)
Definition snorm (m : Qc -> Qc) (xx : list Qc) (ce : cent) (pts : pyval) : res Qc :=
  match ce with
  | ZeroIntegral =>
      a <- getn xx 0 ;; b <- getn xx (length xx - 1) ;;
      n <- spts_of pts ;;
      let g := linspace a b n in
      if b - a =? 0 then Raise NonFinite else Ok (trapz (map m g) g / (b - a))
  | ZeroStart => a <- getn xx 0 ;; Ok (m a)
  | NoCent => Ok EMPTY_SYMBOL
  end.

(** global_effect_shap.py:97-146  _fit_feature: the filtered self.data and the fitted entry. *)
Definition sfit_feature (X : data) (f : nat) (ce : cent) (pts : pyval) : data * res fitted_shap :=
  if Nat.ltb f (dim X) then
    match (lo <- getn (s_mins c) f ;; hi <- getn (s_maxs c) f ;; Ok (lo, hi)) with
    | Raise e => (X, Raise e)
    | Ok (lo, hi) =>
        let X' := drop_points_outside X lo hi f in                                   (* 105-106 *)
        (X',
         V <- s_explain c (rows X') ;;                                               (* 109-111 *)
         yy <- mapM (fun r => getn r f) V ;;                                         (* 114 *)
         let xx := col (rows X') f in
         let idx := s_argsort c xx in                                                (* 118-120 *)
         xx' <- take xx idx ;;
         yy' <- take yy idx ;;
         m <- s_spline c xx' yy' ;;                                                  (* 123 *)
         r <- vzip (fun y x => Qcabs (y - m x)) yy' xx' ;;                           (* 126 *)
         s <- s_spline c xx' r ;;
         z <- snorm m xx' ce pts ;;
         Ok (mkFS m s xx' yy' z))
    end
  else (X, Raise IndexError).

(** global_effect_shap.py:188-200  fit *)
Definition sfit_one (st : sstate) (f : nat) (ce : cent) (pts : pyval) : sstate * res unit :=
  match sfit_feature (ss_data st) f ce pts with
  | (X', Raise e) => (mkSS X' (ss_fe st) (ss_args st) (ss_fitted st), Raise e)
  | (X', Ok v) => (mkSS X' (upd (ss_fe st) f (Some v)) (upd (ss_args st) f (Some ce)) (upd (ss_fitted st) f true), Ok tt)
  end.
Fixpoint sfit_loop (st : sstate) (fs : list nat) (ce : cent) (pts : pyval) : sstate * res unit :=
  match fs with
  | [] => (st, Ok tt)
  | f :: fs' => match sfit_one st f ce pts with
                | (st', Ok _) => sfit_loop st' fs' ce pts
                | (st', Raise e) => (st', Raise e)
                end
  end.
Definition sfit (st : sstate) (fs : list nat) (centering pts : pyval) : sstate * res unit :=
  match prep_cent centering with
  | Ok ce => sfit_loop st fs ce pts
  | Raise e => (st, Raise e)
  end.

(** global_effect.py:111-120  refit *)
Definition srefit (st : sstate) (f : nat) (ce : cent) : res bool :=
  if Nat.ltb f (dim (ss_data st)) then
    if negb (ss_fitted st f) then Ok true
    else match ce with
         | NoCent => Ok false
         | _ => match ss_args st f with None => Raise KeyError | Some a => Ok (negb (cent_eqb a ce)) end
         end
  else Raise IndexError.

(** global_effect_shap.py:235-248  the part of eval after the refit *)
Definition seval_fitted (st : sstate) (f : nat) (xs : list Qc) (het : bool) (ce : cent)
  : res (list Qc * option (list Qc)) :=
  lo <- getn (s_mins c) f ;; hi <- getn (s_maxs c) f ;;
  passert (lo <? hi) ;;
  match ss_fe st f with
  | None => Raise KeyError
  | Some v =>
      let y := map (f_mean v) xs in
      Ok (match ce with NoCent => y | _ => map (fun t => t - f_norm v) y end,
          if het then Some (map (f_std v) xs) else None)
  end.
(** global_effect_shap.py:202-248  eval; the refit uses the default points_for_centering = 100 (line 152). *)
Definition seval (st : sstate) (f : nat) (xs : list Qc) (het : bool) (centering : pyval)
  : sstate * res (list Qc * option (list Qc)) :=
  match prep_cent centering with
  | Raise e => (st, Raise e)
  | Ok ce =>
      match srefit st f ce with
      | Raise e => (st, Raise e)
      | Ok false => (st, seval_fitted st f xs het ce)
      | Ok true =>
          match sfit st [f] centering (PyInt 100) with
          | (st', Raise e) => (st', Raise e)
          | (st', Ok _) => (st', seval_fitted st' f xs het ce)
          end
      end
  end.

(** ** Histories *)
Inductive scall :=
| SFit (fs : list nat) (centering pts : pyval)
| SEval (f : nat) (xs : list Qc) (het : bool) (centering : pyval).
Definition sstep (st : sstate) (k : scall) : sstate :=
  match k with
  | SFit fs ce pts => fst (sfit st fs ce pts)
  | SEval f xs h ce => fst (seval st f xs h ce)
  end.
Definition srun (st : sstate) (ks : list scall) : sstate := fold_left sstep ks st.
End SObj.
