(** GlobalPDP: model of effector/global_effect_pdp.py (PDP and DerPDP objects and the pdp_* functions) on top
    of effector/global_effect.py. The drawing part of [plot] is in Vis.v. *)
From Verif Require Import Base Numpy Utils Helpers GlobalALE.
Open Scope Qc_scope.
Open Scope list_scope.

(** What is called: a model returning predictions (N,D) -> (N,) or one returning the Jacobian (N,D) -> (N,D). *)
Inductive callee := CPred (model : Mat -> list Qc) | CJac (jac : Mat -> Mat).

(** [model(x_new)[:, feature] if model_returns_jac else model(x_new)]
    (global_effect_pdp.py:479, 565). IndexError when the Jacobian has no such column. *)
Definition call_model (m : callee) (f : nat) (Z : Mat) : res (list Qc) :=
  match m with
  | CPred g => Ok (g Z)
  | CJac j => mapM (fun r => getn r f) (j Z)
  end.

(** [x_new[:, feature] = v] on a copy of the data, cast to its dtype (global_effect_pdp.py:467-470, 477-478). *)
Definition assign_col (d : dtype) (f : nat) (v : Qc) (Z : Mat) : Mat := map (fun r => list_set r f (store d v)) Z.

(** [np.reshape(y, (t, n))] of a 1-D array (C order); ValueError when the sizes differ. *)
Fixpoint chunks {A} (t n : nat) (l : list A) : list (list A) :=
  match t with O => [] | S t' => firstn n l :: chunks t' n (skipn n l) end.
Definition reshape2 {A} (t n : nat) (l : list A) : res (list (list A)) :=
  if Nat.eqb (length l) (t * n) then Ok (chunks t n l) else Raise ValueError.

(** the step 1e-6 of the central differences (global_effect_pdp.py:468-472, 547-560) *)
Definition STEP : Qc := Q2Qc (1 # 1000000).
Definition cdiff (y1 y2 : list Qc) : res (list Qc) := vzip (fun a b => (a - b) / (Q2Qc 2 * STEP)) y1 y2.

(** [np.array(y_list)] of 1-D arrays: ragged input is a ValueError; an empty list has ndim 1 and the following
    [np.mean(y, axis=1)] raises AxisError, which is a ValueError (global_effect_pdp.py:474, 481, 483). *)
Definition stack_rows (ys : Mat) : res Mat :=
  match ys with
  | [] => Raise ValueError
  | r :: rs => if forallb (fun r' => Nat.eqb (length r') (length r)) rs then Ok ys else Raise ValueError
  end.

(** global_effect_pdp.py:417-493  pdp_1d_non_vectorized(model, data, x, feature, _, model_returns_jac,
    return_all=True, ask_for_derivatives): the (T, N) matrix. [der] is ask_for_derivatives. *)
Definition pdp_1d_non_vectorized (m : callee) (X : data) (xs : list Qc) (f : nat) (der : bool) : res Mat :=
  ys <- mapM (fun x =>
          if Nat.ltb f (dim X) then
            match der, m with
            | true, CPred g =>
                let y1 := g (assign_col (dt X) f (x + STEP) (rows X)) in              (* 468-469 *)
                let y2 := g (assign_col (dt X) f (x - STEP) (rows X)) in              (* 470-471 *)
                cdiff y1 y2                                                           (* 472 *)
            | _, _ => call_model m f (assign_col (dt X) f x (rows X))                 (* 477-480 *)
            end
          else Raise IndexError) xs ;;
  stack_rows ys.

(** global_effect_pdp.py:541-543, 547-556, 563 : the (T, N, D) array, [x_new[:, :, feature] = np.expand_dims(x, -1)]. *)
Definition tensor (X : data) (T : nat) : list Mat := repeat (rows X) T.
Definition assign_tensor (d : dtype) (f : nat) (xs : list Qc) (t : list Mat) : list Mat :=
  map (fun p => assign_col d f (snd p) (fst p)) (combine t xs).

(** global_effect_pdp.py:496-578  pdp_1d_vectorized, return_all=True. *)
Definition pdp_1d_vectorized (m : callee) (X : data) (xs : list Qc) (f : nat) (der : bool) : res Mat :=
  let T := length xs in
  let N := length (rows X) in
  let x_new := tensor X T in
  if Nat.ltb f (dim X) then
    match der, m with
    | true, CPred g =>
        let x1 := concat (assign_tensor (dt X) f (map (fun x => x + STEP) xs) x_new) in   (* 546-550 *)
        let x2 := concat (assign_tensor (dt X) f (map (fun x => x - STEP) xs) x_new) in   (* 552-556 *)
        y <- cdiff (g x1) (g x2) ;;                                                       (* 558-561 *)
        reshape2 T N y
    | _, _ =>
        y <- call_model m f (concat (assign_tensor (dt X) f xs x_new)) ;;                 (* 563-566 *)
        reshape2 T N y
    end
  else Raise IndexError.

(** The summary of the (T,N) matrix when return_all=False, heterogeneity=False/True
    (global_effect_pdp.py:483-493, 568-578): row means, row stds, std / sqrt(N). [rt] is np.sqrt. *)
Definition row_means (yy : Mat) : list NQ := map np_mean yy.
Definition row_stds (rt : Qc -> Qc) (yy : Mat) : list NQ := map (fun r => option_map rt (np_var r)) yy.
Definition row_stderrs (rt : Qc -> Qc) (N : nat) (yy : Mat) : list NQ :=
  map (fun s => option_map (fun v => v / rt (qn N)) s) (row_stds rt yy).
(** What the module-level functions return with return_all=False: the means and, with heterogeneity=True, the
    standard deviations and standard errors (global_effect_pdp.py:483-493 and 568-578). *)
Definition returned (rt : Qc -> Qc) (N : nat) (het : bool) (yy : Mat) : list NQ * option (list NQ * list NQ) :=
  (row_means yy, if het then Some (row_stds rt yy, row_stderrs rt N yy) else None).
Definition pdp_1d (vec : bool) (rt : Qc -> Qc) (m : callee) (X : data) (xs : list Qc) (f : nat) (der het : bool)
  : res (list NQ * option (list NQ * list NQ)) :=
  rmap (returned rt (length (rows X)) het) ((if vec then pdp_1d_vectorized else pdp_1d_non_vectorized) m X xs f der).

(** ** n-dimensional variants *)

(** global_effect_pdp.py:582-637  pdp_nd_non_vectorized with heterogeneity=False and [features] a list of
    indices. [for j, feat in features] (line 619) unpacks an int: TypeError as soon as the loop body runs.
    [x.shape[1]] is passed as [w]. With no feature and no position the mean list is empty. *)
Definition pdp_nd_non_vectorized (m : callee) (X : data) (xs : Mat) (w : nat) (features : list nat) : res (list NQ) :=
  passert (Nat.eqb (length features) w) ;;
  mapM (fun _ =>
     match features with
     | [] => match m with
             | CPred g => Ok (np_mean (g (rows X)))
             | CJac _ => Ok None                                   (* the mean of an empty selection *)
             end
     | _ :: _ => Raise TypeError
     end) xs.

(** global_effect_pdp.py:684-688 : the loop setting the listed features, one after the other, in the tensor. *)
Fixpoint assign_features (X : data) (xs : Mat) (fs : list nat) (j : nat) (t : list Mat) : res (list Mat) :=
  match fs with
  | [] => Ok t
  | f :: fs' =>
      if Nat.ltb f (dim X) then
        assign_features X xs fs' (S j) (assign_tensor (dt X) f (map (fun r => nth j r 0) xs) t)
      else Raise IndexError
  end.
(** global_effect_pdp.py:641-699  pdp_nd_vectorized, heterogeneity=False: the (T,N) matrix [y] of line 691. *)
Definition pdp_nd_matrix (m : callee) (X : data) (xs : Mat) (w : nat) (features : list nat) : res Mat :=
  passert (Nat.eqb (length features) w) ;;                                         (* 682 *)
  let T := length xs in
  let N := length (rows X) in
  t <- assign_features X xs features 0 (tensor X T) ;;
  y <- match m with
       | CPred g => Ok (g (concat t))
       | CJac j => rs <- mapM (fun r => mapM (getn r) features) (j (concat t)) ;; Ok (concat rs)   (* [:, features] *)
       end ;;
  reshape2 T N y.
Definition pdp_nd_vectorized (m : callee) (X : data) (xs : Mat) (w : nat) (features : list nat) : res (list NQ) :=
  rmap row_means (pdp_nd_matrix m X xs w features).
(** global_effect_pdp.py:692-699  the same with the heterogeneity flag *)
Definition pdp_nd (rt : Qc -> Qc) (m : callee) (X : data) (xs : Mat) (w : nat) (features : list nat) (het : bool)
  : res (list NQ * option (list NQ * list NQ)) := rmap (returned rt (length (rows X)) het) (pdp_nd_matrix m X xs w features).

(** ** PDP / DerPDP objects *)

Inductive pkind := KPDP | KDer (model_jac : option (Mat -> Mat)).

(** Immutable attributes (global_effect.py:57-86); the data is mutable, see below. *)
Record pconfig := mkPC { p_kind : pkind; p_model : Mat -> list Qc; p_mins : list Qc; p_maxs : list Qc }.

(** Mutable attributes: self.data (overwritten by _fit_feature, lines 58-59), feature_effect[...]["norm_const"]
    (a vector, or the scalar EMPTY_SYMBOL as a one-element list), method_args (centering; points_for_centering is
    recorded there but never read), is_fitted. *)
Record pstate := mkPS {
  ps_data : data;
  ps_norm : nat -> option (list Qc);
  ps_args : nat -> option cent;
  ps_fitted : nat -> bool }.

(** global_effect_pdp.py:12-34, global_effect_pdp.py:265-334, global_effect_pdp.py:338-414 and global_effect.py:57-86: the constructors PDP(...) and DerPDP(...). *)
Definition pconstruct (choice : nat -> nat -> list nat) (k : pkind) (X : data) (model : Mat -> list Qc)
    (nof : pyval) (al : option (list Qc * list Qc)) : res (pconfig * pstate) :=
  '(_, idx) <- prep_nof_instances choice nof (length (rows X)) ;;
  rs <- select_rows (rows X) idx ;;
  let d := mkData (dt X) (dim X) rs in
  '(mins, maxs) <- match al with Some p => Ok p | None => axis_limits_from_data d end ;;
  Ok (mkPC k model mins maxs, mkPS d (fun _ => None) (fun _ => None) (fun _ => false)).

(** [np.linspace(lo, hi, points_for_centering)] (lines 63-67): a negative count is a ValueError, a non-integer
    (such as the documented "all") a TypeError; True/False count as 1/0. *)
Definition pts_of (v : pyval) : res nat :=
  match v with
  | PyInt z => if (z <? 0)%Z then Raise ValueError else Ok (Z.to_nat z)
  | PyBool b => Ok (if b then 1%nat else 0%nat)
  | _ => Raise TypeError
  end.

(** [np.mean(y, axis=0)] of a (T,N) matrix; NaN when T = 0. *)
Definition col_means (N : nat) (yy : Mat) : res (list Qc) :=
  match yy with
  | [] => Raise NonFinite
  | _ => Ok (map (fun i => sumq (map (fun r => nth i r 0) yy) / qn (length yy)) (seq 0 N))
  end.
Definition width (dflt : nat) (yy : Mat) : nat := match yy with [] => dflt | r :: _ => length r end.

(** [yy - np.expand_dims(norm, 0)] with numpy broadcasting of (T,N) and (1,M) (lines 174-178). *)
Definition sub_norm (N : nat) (yy : Mat) (norm : list Qc) : res Mat :=
  let n := width N yy in
  let M := length norm in
  if (Nat.eqb n M || Nat.eqb n 1 || Nat.eqb M 1)%bool then mapM (fun r => vzip Qcminus r norm) yy
  else Raise ValueError.

(** The result of eval: y, (y, std) or the ICE matrix (lines 180-189). *)
Inductive pout := OMean (y : list NQ) | OMeanStd (y std : list NQ) | OAll (yy : Mat).

Section PObj.
Variable c : pconfig.

(** global_effect_pdp.py:36-47  PDPBase._predict; [vec] is use_vectorized. *)
Definition predict (vec : bool) (X : data) (xs : list Qc) (f : nat) : res Mat :=
  let method := if vec then pdp_1d_vectorized else pdp_1d_non_vectorized in
  match p_kind c with
  | KPDP => method (CPred (p_model c)) X xs f false
  | KDer (Some j) => method (CJac j) X xs f false
  | KDer None => method (CPred (p_model c)) X xs f true
  end.

(** global_effect_pdp.py:49-77  PDPBase._fit_feature: the filtered self.data and the norm constant. *)
Definition pfit_feature (X : data) (f : nat) (ce : cent) (pts : pyval) (vec : bool) : data * res (list Qc) :=
  if Nat.ltb f (dim X) then
    match (lo <- getn (p_mins c) f ;; hi <- getn (p_maxs c) f ;; Ok (lo, hi)) with
    | Raise e => (X, Raise e)
    | Ok (lo, hi) =>
        let X' := drop_points_outside X lo hi f in                                   (* 58-60 *)
        (X',
         match ce with
         | ZeroIntegral =>
             n <- pts_of pts ;;
             y <- predict vec X' (linspace lo hi n) f ;;
             col_means (width (length (rows X')) y) y                                (* 62-70 *)
         | ZeroStart =>
             y <- predict vec X' [lo] f ;;
             getn y 0                                                                (* 71-74 *)
         | NoCent => Ok [EMPTY_SYMBOL]                                               (* 76 *)
         end)
    end
  else (X, Raise IndexError).

(** one iteration of the loop of fit (lines 114-122) *)
Definition pfit_one (st : pstate) (f : nat) (ce : cent) (pts : pyval) (vec : bool) : pstate * res unit :=
  match pfit_feature (ps_data st) f ce pts vec with
  | (X', Raise e) => (mkPS X' (ps_norm st) (ps_args st) (ps_fitted st), Raise e)
  | (X', Ok n) => (mkPS X' (upd (ps_norm st) f (Some n)) (upd (ps_args st) f (Some ce)) (upd (ps_fitted st) f true),
                   Ok tt)
  end.
Fixpoint pfit_loop (st : pstate) (fs : list nat) (ce : cent) (pts : pyval) (vec : bool) : pstate * res unit :=
  match fs with
  | [] => (st, Ok tt)
  | f :: fs' => match pfit_one st f ce pts vec with
                | (st', Ok _) => pfit_loop st' fs' ce pts vec
                | (st', Raise e) => (st', Raise e)
                end
  end.
(** global_effect_pdp.py:79-122  fit; [fs] is the feature list after prep_features. *)
Definition pfit (st : pstate) (fs : list nat) (centering pts : pyval) (vec : bool) : pstate * res unit :=
  match prep_cent centering with
  | Ok ce => pfit_loop st fs ce pts vec
  | Raise e => (st, Raise e)
  end.

(** global_effect.py:111-120  refit *)
Definition prefit (st : pstate) (f : nat) (ce : cent) : res bool :=
  if Nat.ltb f (dim (ps_data st)) then
    if negb (ps_fitted st f) then Ok true
    else match ce with
         | NoCent => Ok false
         | _ => match ps_args st f with None => Raise KeyError | Some a => Ok (negb (cent_eqb a ce)) end
         end
  else Raise IndexError.

(** default of points_for_centering (line 83) *)
Definition default_pts : pyval := PyInt 100.

(** the part of eval after the refit (lines 168-189) *)
Definition peval_fitted (rt : Qc -> Qc) (st : pstate) (f : nat) (xs : list Qc) (het : bool) (ce : cent)
    (all vec : bool) : res pout :=
  lo <- getn (p_mins c) f ;; hi <- getn (p_maxs c) f ;;
  passert (lo <? hi) ;;                                                              (* 169 *)
  yy <- predict vec (ps_data st) xs f ;;                                             (* 172 *)
  yy' <- match ce with
         | NoCent => Ok yy
         | _ => match ps_norm st f with
                | None => Raise KeyError
                | Some n => sub_norm (length (rows (ps_data st))) yy n               (* 174-178 *)
                end
         end ;;
  Ok (if all then OAll yy'
      else if het then OMeanStd (row_means yy') (row_stds rt yy')
      else OMean (row_means yy')).

(** global_effect_pdp.py:124-189  eval *)
Definition peval (rt : Qc -> Qc) (st : pstate) (f : nat) (xs : list Qc) (het : bool) (centering : pyval)
    (all vec : bool) : pstate * res pout :=
  match prep_cent centering with
  | Raise e => (st, Raise e)
  | Ok ce =>
      match prefit st f ce with
      | Raise e => (st, Raise e)
      | Ok false => (st, peval_fitted rt st f xs het ce all vec)
      | Ok true =>
          match pfit st [f] centering default_pts vec with                            (* 166 *)
          | (st', Raise e) => (st', Raise e)
          | (st', Ok _) => (st', peval_fitted rt st' f xs het ce all vec)
          end
      end
  end.

(** ** Histories *)
Inductive pcall :=
| PFit (fs : list nat) (centering pts : pyval) (vec : bool)
| PEval (f : nat) (xs : list Qc) (het : bool) (centering : pyval) (all vec : bool).
Definition pstep (rt : Qc -> Qc) (st : pstate) (k : pcall) : pstate :=
  match k with
  | PFit fs ce pts vec => fst (pfit st fs ce pts vec)
  | PEval f xs h ce al vec => fst (peval rt st f xs h ce al vec)
  end.
Definition prun (rt : Qc -> Qc) (st : pstate) (ks : list pcall) : pstate := fold_left (pstep rt) ks st.
End PObj.

(** The state of a freshly constructed object on the (already selected) data. *)
Definition pfresh (X : data) : pstate := mkPS X (fun _ => None) (fun _ => None) (fun _ => false).
