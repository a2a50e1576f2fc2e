(** Utils: model of effector/utils.py. *)
From Verif Require Import Base Numpy.
Open Scope Qc_scope.

(** ** Data arrays *)

(** dtype of a numpy data array. Storing a float into an int64 array truncates towards zero. *)
Inductive dtype := Float64 | Int64.
Definition qtrunc (q : Qc) : Qc := qz (Z.quot (Qnum (this q)) (Zpos (Qden (this q)))).
Definition store (d : dtype) (v : Qc) : Qc := match d with Float64 => v | Int64 => qtrunc v end.

(** A data array of shape (length rows, dim). *)
Record data := mkData { dt : dtype; dim : nat; rows : Mat }.
Definition wf_data (X : data) : Prop := forall r, In r (rows X) -> length r = dim X.

(** [X[:, f]] : IndexError when f is out of range. Simplification: feature indices are natural numbers
    (Python would accept negative ones). *)
Definition getcol (X : data) (f : nat) : res (list Qc) :=
  if Nat.ltb f (dim X) then Ok (col (rows X) f) else Raise IndexError.

(** [X1 = deepcopy(X); X1[:, f] = vs] with the cast to the dtype of X (utils.py:58-61). *)
Definition set_col (X : data) (f : nat) (vs : list Qc) : Mat :=
  map (fun p => list_set (fst p) f (store (dt X) (snd p))) (combine (rows X) vs).

(** [l[-1] += e] on a copy. *)
Definition add_last (l : list Qc) (e : Qc) : list Qc := list_updn l (length l - 1) (fun v => v + e).

(** assignment of a vector to n places: exact length or a length-1 broadcast, else ValueError *)
Definition broadcast_to (n : nat) (v : list Qc) : res (list Qc) :=
  if Nat.eqb (length v) n then Ok v
  else match v with [a] => Ok (repeat a n) | _ => Raise ValueError end.

(** utils.py:10-64  compute_local_effects.
    First component: the caller's [limits] array after the call (line 53 mutates it in place).
    Simplifications: [np.squeeze] (line 64) is the identity on (N,) results (for N = 1 numpy returns a
    0-d array); a zero bin width gives NaN/inf in numpy, here [Raise NonFinite]. *)
Definition compute_local_effects (X : data) (model : Mat -> list Qc) (limits : list Qc) (f : nat)
  : list Qc * res (list Qc) :=
  match (c <- getcol X f ;;
         l0 <- getn limits 0 ;;                                     (* line 49 *)
         mn <- np_min c ;;
         passert (l0 <=? mn) ;;
         lk <- getz limits (-1) ;;                                  (* line 50 *)
         mx <- np_max c ;;
         passert (mx <=? lk) ;;
         Ok c) with
  | Raise e => (limits, Raise e)
  | Ok c =>
      let limits := add_last limits EPS in                          (* line 53 *)
      (limits,
       ind <- digitize c limits ;;                                  (* line 54 *)
       passert (forallb (fun i => Nat.ltb 0 i) ind) ;;              (* line 55 *)
       r <- take limits ind ;;                                      (* line 60 *)
       l <- take limits (map Nat.pred ind) ;;                       (* line 61 *)
       let right_lim := set_col X f r in
       let left_lim := set_col X f l in
       l0 <- getn limits 0 ;;
       l1 <- getn limits 1 ;;
       let dx := l1 - l0 in                                         (* line 62 *)
       data_effect <- vzip Qcminus (model right_lim) (model left_lim) ;;  (* line 63 *)
       if dx =? 0 then Raise NonFinite else
       Ok (map (fun d => d / dx) data_effect))                      (* line 64 *)
  end.

(** utils.py:67-104  filter_points_in_bin(xs, df_dxs, [start, stop]) : the CLOSED interval. *)
Definition closed_in (start stop x : Qc) : bool := (start <=? x) && (x <=? stop).
Definition filter_points_in_bin (xs : list Qc) (start stop : Qc) : list Qc :=
  filter (closed_in start stop) xs.
(** the same with effects (boolean-mask indexing [df_dxs[filt]]) *)
Definition filter_effects_in_bin (xs df_dxs : list Qc) (start stop : Qc) : list Qc :=
  map snd (filter (fun p => closed_in start stop (fst p)) (combine xs df_dxs)).

(** bin index of every instance, shared by utils.py:143-145 and utils.py:216-218
    ([limits_enh = deepcopy(limits).astype(float); limits_enh[-1] += EPS; ind = digitize(xs, limits_enh)]). *)
Definition bin_indices (xs limits : list Qc) : res (list Z) :=
  match limits with
  | [] => Raise IndexError
  | _ => ind <- digitize xs (add_last limits EPS) ;;
         Ok (map (fun i => (Z.of_nat i - 1)%Z) ind)                 (* ind - 1 *)
  end.

(** np.divide(a, n, out=NaN, where = cond n) (utils.py:154-159, 230-243) *)
Definition divide_where (cond : nat -> bool) (a : list NQ) (n : list nat) : list NQ :=
  map (fun p => if cond (snd p) then match fst p with Some v => Some (v / qn (snd p)) | None => None end
                else None) (combine a n).

(** utils.py:107-160  compute_bin_effect *)
Definition compute_bin_effect (xs df_dxs limits : list Qc) : res (list NQ * list nat) :=
  idx <- bin_indices xs limits ;;                                   (* 143-145 *)
  let nof_bins := (length limits - 1)%nat in                        (* 149 *)
  aggregated_effect <- bincount_w idx (map Some df_dxs) nof_bins ;; (* 150 *)
  points_per_bin <- bincount idx nof_bins ;;                        (* 151 *)
  Ok (divide_where (fun n => negb (Nat.eqb n 0)) aggregated_effect points_per_bin, points_per_bin).

(** utils.py:163-244  compute_bin_variance *)
Definition compute_bin_variance (xs df_dxs limits : list Qc) (bin_effect_mean : list NQ)
  : res (list NQ * list NQ) :=
  idx <- bin_indices xs limits ;;                                   (* 216-218 *)
  m <- takez bin_effect_mean idx ;;                                 (* 222 *)
  variance_per_point <- vzip (fun e m => lift2 (fun e m => (e - m) * (e - m)) e m) (map Some df_dxs) m ;;
  let nof_bins := (length limits - 1)%nat in
  aggregated <- bincount_w idx variance_per_point nof_bins ;;       (* 224 *)
  points_per_bin <- bincount idx nof_bins ;;                        (* 227 *)
  let bin_variance := divide_where (fun n => Nat.ltb 1 n) aggregated points_per_bin in
  let bin_estimator_variance := divide_where (fun n => Nat.ltb 1 n) bin_variance points_per_bin in
  Ok (bin_variance, bin_estimator_variance).

(** utils.py:247-276  fill_nans: np.interp at the NaN positions over the (index, value) pairs of the
    non-NaN entries; np.interp raises ValueError when there is no sample point. *)
Fixpoint valid_points (i : nat) (x : list NQ) : list (Qc * Qc) :=
  match x with
  | [] => []
  | Some v :: x' => (qn i, v) :: valid_points (S i) x'
  | None :: x' => valid_points (S i) x'
  end.
Definition fill_nans (x : list NQ) : res (list Qc) :=
  match valid_points 0 x with
  | [] => Raise ValueError
  | pts => mapM (fun p => match snd p with
                          | Some v => Ok v
                          | None => interp1 pts (qn (fst p))
                          end) (combine (seq 0 (length x)) x)
  end.

(** utils.py:279-364  compute_accumulated_effect *)
Definition compute_accumulated_effect (x limits bin_effect dx : list Qc) (square : bool)
  : res (list Qc) :=
  ind <- digitize x limits ;;                                                   (* 347 *)
  prod <- vzip (fun e d => if square then e * (d * d) else e * d) bin_effect dx ;;
  let x_cumsum := cumsum prod in                                                (* 350 *)
  full_bin_effect <- take (0 :: 0 :: x_cumsum) ind ;;                           (* 351-352 *)
  l0 <- getn limits 0 ;;
  left <- take (l0 :: init_ limits ++ [BIG_M]) ind ;;                           (* 355-356 *)
  let deltas := map (fun p => let d := fst p - snd p in if d <? 0 then 0 else d) (combine x left) in
  let deltas := if square then map (fun d => d * d) deltas else deltas in       (* 358 *)
  be_last <- getz bin_effect (-1) ;;
  eff <- take (0 :: bin_effect ++ [be_last]) ind ;;                             (* 359-360 *)
  Ok (map (fun p => fst p + fst (snd p) * snd (snd p))                          (* 363 *)
          (combine full_bin_effect (combine deltas eff))).

(** The dictionary of utils.py:411-418. *)
Record ale_params := mkParams {
  ap_limits : list Qc; ap_dx : list Qc; ap_ppb : list nat;
  ap_effect : list Qc; ap_var : list Qc; ap_estvar : list Qc }.

(** utils.py:396 : consecutive differences *)
Definition diffs (l : list Qc) : list Qc := map (fun p => snd p - fst p) (combine l (tl l)).

(** utils.py:367-419  compute_ale_params *)
Definition compute_ale_params (xs df_dxs limits : list Qc) : res ale_params :=
  let dx := diffs limits in                                                     (* 396 *)
  '(bin_effect_nans, points_per_bin) <- compute_bin_effect xs df_dxs limits ;;  (* 399 *)
  '(bin_variance_nans, bin_est_nans) <- compute_bin_variance xs df_dxs limits bin_effect_nans ;;
  bin_effect <- fill_nans bin_effect_nans ;;                                    (* 407 *)
  bin_variance <- fill_nans bin_variance_nans ;;                                (* 408 *)
  bin_est <- fill_nans bin_est_nans ;;                                          (* 409 *)
  Ok (mkParams limits dx points_per_bin bin_effect bin_variance bin_est).

(** utils.py:422-442  get_feature_types *)
Inductive ftype := Cat | Cont.
Definition get_feature_types (X : data) (categorical_limit : nat) : list ftype :=
  map (fun f => if Nat.ltb (length (unique (col (rows X) f))) categorical_limit then Cat else Cont)
      (seq 0 (dim X)).

(** utils.py:445-479  compute_jacobian_numerically. The in-place [+= eps] on an integer array (line 477)
    is rejected by numpy (UFuncTypeError, a TypeError). *)
Definition add_col (X : data) (f : nat) (eps : Qc) : Mat :=
  map (fun r => list_updn r f (fun v => v + eps)) (rows X).
Definition compute_jacobian_numerically (model : Mat -> list Qc) (X : data) (eps : Qc) : res Mat :=
  cols <- mapM (fun f =>
             match dt X with
             | Int64 => Raise TypeError                                         (* 477 *)
             | Float64 =>
                 d <- vzip Qcminus (model (add_col X f eps)) (model (rows X)) ;;
                 if eps =? 0 then Raise NonFinite else
                 broadcast_to (length (rows X)) (map (fun v => v / eps) d)      (* 478 *)
             end) (seq 0 (dim X)) ;;
  Ok (map (fun i => map (fun c => nth i c 0) cols) (seq 0 (length (rows X)))).
