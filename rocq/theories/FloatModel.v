(** FloatModel: the bin computations of effector/utils.py, bin_splitting.py and global_effect_ale.py once more, this
    time in IEEE-754 binary64 arithmetic (numpy's float64), with Flocq's executable definition of the operations.
    The rational model (Utils.v, Binning.v, GlobalALE.v) is exact; this one is what the machine computes.
    Modelled here: compute_local_effects, compute_bin_effect, compute_bin_variance, fill_nans,
    compute_accumulated_effect, compute_ale_params, compute_jacobian_numerically, np.linspace, Fixed.find,
    ALE._fit_feature. Payload of NaNs is not modelled (one NaN), nor are floating-point warnings. *)
From Coq Require Import Reals.
From Flocq Require Import Core.
From Flocq Require Import IEEE754.BinarySingleNaN.
From Verif Require Import Base Numpy.

Global Instance Hprec53 : Prec_gt_0 53. Proof. reflexivity. Qed.
Global Instance Hmax1024 : Prec_lt_emax 53 1024. Proof. reflexivity. Qed.

(** numpy's float64; every operation rounds to nearest, ties to even *)
Notation b64 := (binary_float 53 1024).
Definition fadd : b64 -> b64 -> b64 := Bplus mode_NE.
Definition fsub : b64 -> b64 -> b64 := Bminus mode_NE.
Definition fmul : b64 -> b64 -> b64 := Bmult mode_NE.
Definition fdiv : b64 -> b64 -> b64 := Bdiv mode_NE.
Definition fzero : b64 := B754_zero false.
Definition fnan : b64 := B754_nan.
(** conversion of an integer to float64 *)
Definition fofZ (z : Z) : b64 := binary_normalize 53 1024 Hprec53 Hmax1024 mode_NE z 0 false.
Definition fofn (n : nat) : b64 := fofZ (Z.of_nat n).

(** helpers.py:6  EPS = 1e-8 : the float64 nearest to 1e-8, 0x1.5798ee2308c3ap-27 (see [EPS64_nearest]) *)
Definition EPS64 : b64 := @B754_finite 53 1024 false 6044629098073146 (-79) eq_refl.
(** helpers.py:5  BIG_M = 1e8 *)
Definition BIGM64 : b64 := fofZ 100000000.

(** ** numpy primitives *)

(** np.minimum / np.maximum reductions (NaN propagates); ValueError on an empty array (utils.py:49-50) *)
Definition fmin (a b : b64) : b64 := if is_nan a then a else if is_nan b then b else if Bleb a b then a else b.
Definition fmax (a b : b64) : b64 := if is_nan a then a else if is_nan b then b else if Bleb b a then a else b.
Definition np_min64 (l : list b64) : res b64 :=
  match l with [] => Raise ValueError | a :: l' => Ok (fold_left fmin l' a) end.
Definition np_max64 (l : list b64) : res b64 :=
  match l with [] => Raise ValueError | a :: l' => Ok (fold_left fmax l' a) end.

(** np.digitize (utils.py:54, 145, 218, 347): ValueError unless the bins are monotone, otherwise the number of limits
    not above x (NaN sorts after every number). *)
Definition mono_incr64 (l : list b64) : bool := forallb (fun p => Bleb (fst p) (snd p)) (combine l (tl l)).
Definition mono_decr64 (l : list b64) : bool := forallb (fun p => Bleb (snd p) (fst p)) (combine l (tl l)).
Definition digitize64_1 (bins : list b64) (x : b64) : nat := count (fun b => negb (Bltb x b)) bins.
Definition digitize64_1d (bins : list b64) (x : b64) : nat := count (fun b => Bltb x b) bins.
Definition digitize64 (xs bins : list b64) : res (list nat) :=
  if mono_incr64 bins then Ok (map (digitize64_1 bins) xs)
  else if mono_decr64 bins then Ok (map (digitize64_1d bins) xs)
  else Raise ValueError.

(** np.bincount with weights (utils.py:150, 224): a sequential accumulation from +0.0 *)
Definition fsum (l : list b64) : b64 := fold_left fadd l fzero.
Definition bincount_w64 (idx : list Z) (w : list b64) (minlength : nat) : res (list b64) :=
  if negb (Nat.eqb (length idx) (length w)) then Raise ValueError
  else if existsb (fun z => (z <? 0)%Z) idx then Raise ValueError
  else Ok (map (fun k => fsum (map snd (filter (fun p => Z.eqb (Z.of_nat k) (fst p)) (combine idx w))))
               (seq 0 (bincount_len idx minlength))).

(** np.linspace(start, stop, num) (bin_splitting.py:371): delta = stop - start, step = delta / div,
    y = arange(num) * step + start (if step == 0: arange(num) / div * delta + start), y[-1] = stop *)
Definition linspace64 (start stop : b64) (num : nat) : list b64 :=
  let div := fofn (num - 1) in
  let delta := fsub stop start in
  let step := fdiv delta div in
  match num with
  | O => []
  | 1%nat => [fadd (fmul fzero delta) start]
  | _ => map (fun i => if Nat.eqb (S i) num then stop
                       else fadd (if Beqb step fzero then fmul (fdiv (fofn i) div) delta else fmul (fofn i) step) start)
             (seq 0 num)
  end.

(** [l[-1] += EPS] on a copy (utils.py:53, 144, 217) *)
Definition widen64 (l : list b64) : list b64 := list_updn l (length l - 1) (fun v => fadd v EPS64).

Definition col64 (X : list (list b64)) (f : nat) : list b64 := map (fun r => nth f r fnan) X.
Definition set_col64 (X : list (list b64)) (f : nat) (vs : list b64) : list (list b64) :=
  map (fun p => list_set (fst p) f (snd p)) (combine X vs).

(** ** effector/utils.py *)

(** utils.py:10-64  compute_local_effects on a float64 array with the feature index in range. First component: the
    caller's limits after the call (line 53 mutates them). *)
Definition compute_local_effects64 (X : list (list b64)) (model : list (list b64) -> list b64) (limits : list b64) (f : nat)
  : list b64 * res (list b64) :=
  match (l0 <- getn limits 0 ;;
         mn <- np_min64 (col64 X f) ;;
         passert (Bleb l0 mn) ;;                                          (* 49 *)
         lk <- getz limits (-1) ;;
         mx <- np_max64 (col64 X f) ;;
         passert (Bleb mx lk) ;;                                          (* 50 *)
         Ok tt) with
  | Raise e => (limits, Raise e)
  | Ok _ =>
      let limits := widen64 limits in                                     (* 53 *)
      (limits,
       ind <- digitize64 (col64 X f) limits ;;                            (* 54 *)
       passert (forallb (fun i => Nat.ltb 0 i) ind) ;;                    (* 55 *)
       r <- take limits ind ;;                                            (* 60 *)
       l <- take limits (map Nat.pred ind) ;;                             (* 61 *)
       l0 <- getn limits 0 ;;
       l1 <- getn limits 1 ;;
       let dx := fsub l1 l0 in                                            (* 62 *)
       data_effect <- vzip fsub (model (set_col64 X f r)) (model (set_col64 X f l)) ;;   (* 58-61, 63 *)
       Ok (map (fun d => fdiv d dx) data_effect))                         (* 64 *)
  end.

(** utils.py:143-145, 215-218  ind - 1 *)
Definition bin_indices64 (xs limits : list b64) : res (list Z) :=
  match limits with
  | [] => Raise IndexError
  | _ => ind <- digitize64 xs (widen64 limits) ;;
         Ok (map (fun i => (Z.of_nat i - 1)%Z) ind)
  end.

(** np.divide(a, n, out=NaN, where=cond n) (utils.py:154-159, 230-243) *)
Definition divide_where64 (cond : nat -> bool) (a : list b64) (n : list nat) : list b64 :=
  map (fun p => if cond (snd p) then fdiv (fst p) (fofn (snd p)) else fnan) (combine a n).

(** utils.py:107-160  compute_bin_effect *)
Definition compute_bin_effect64 (xs df_dxs limits : list b64) : res (list b64 * list nat) :=
  idx <- bin_indices64 xs limits ;;                                       (* 143-145 *)
  let nof_bins := (length limits - 1)%nat in                              (* 149 *)
  aggregated <- bincount_w64 idx df_dxs nof_bins ;;                       (* 150 *)
  points_per_bin <- bincount idx nof_bins ;;                              (* 151 *)
  Ok (divide_where64 (fun n => negb (Nat.eqb n 0)) aggregated points_per_bin, points_per_bin).

(** utils.py:163-244  compute_bin_variance *)
Definition compute_bin_variance64 (xs df_dxs limits bin_effect_mean : list b64) : res (list b64 * list b64) :=
  idx <- bin_indices64 xs limits ;;                                       (* 215-218 *)
  m <- takez bin_effect_mean idx ;;                                       (* 222 *)
  variance_per_point <- vzip (fun e m => fmul (fsub e m) (fsub e m)) df_dxs m ;;
  let nof_bins := (length limits - 1)%nat in
  aggregated <- bincount_w64 idx variance_per_point nof_bins ;;           (* 224 *)
  points_per_bin <- bincount idx nof_bins ;;                              (* 227 *)
  let bin_variance := divide_where64 (fun n => Nat.ltb 1 n) aggregated points_per_bin in
  let bin_estimator_variance := divide_where64 (fun n => Nat.ltb 1 n) bin_variance points_per_bin in
  Ok (bin_variance, bin_estimator_variance).

(** np.interp (utils.py:275), numpy's compiled loop: slope * (x - x0) + f0, recomputed from the right end and then
    replaced by f0 if that is NaN *)
Definition interp_step64 (x0 f0 x1 f1 x : b64) : b64 :=
  if Beqb x0 x then f0 else
  let slope := fdiv (fsub f1 f0) (fsub x1 x0) in
  let r := fadd (fmul slope (fsub x x0)) f0 in
  if is_nan r then
    let r := fadd (fmul slope (fsub x x1)) f1 in
    if is_nan r && Beqb f0 f1 then f0 else r
  else r.
Fixpoint interp_from64 (x0 f0 : b64) (pts : list (b64 * b64)) (x : b64) : b64 :=
  match pts with
  | [] => f0
  | (x1, f1) :: pts' => if Bltb x x1 then interp_step64 x0 f0 x1 f1 x else interp_from64 x1 f1 pts' x
  end.
Definition interp64 (pts : list (b64 * b64)) (x : b64) : res b64 :=
  match pts with
  | [] => Raise ValueError
  | (x0, f0) :: pts' => if Bltb x x0 then Ok f0 else Ok (interp_from64 x0 f0 pts' x)
  end.

(** utils.py:247-276  fill_nans *)
Fixpoint valid_points64 (i : nat) (x : list b64) : list (b64 * b64) :=
  match x with
  | [] => []
  | v :: x' => if is_nan v then valid_points64 (S i) x' else (fofn i, v) :: valid_points64 (S i) x'
  end.
Definition fill_nans64 (x : list b64) : res (list b64) :=
  match valid_points64 0 x with
  | [] => Raise ValueError
  | pts => mapM (fun p => if is_nan (snd p) then interp64 pts (fofn (fst p)) else Ok (snd p)) (combine (seq 0 (length x)) x)
  end.

(** utils.py:279-364  compute_accumulated_effect *)
Fixpoint cumsum_from64 (acc : b64) (l : list b64) : list b64 :=
  match l with [] => [] | a :: l' => fadd acc a :: cumsum_from64 (fadd acc a) l' end.
(** the first element of a cumsum is the first summand itself *)
Definition cumsum64 (l : list b64) : list b64 := match l with [] => [] | a :: l' => a :: cumsum_from64 a l' end.
Definition compute_accumulated_effect64 (x limits bin_effect dx : list b64) (square : bool) : res (list b64) :=
  ind <- digitize64 x limits ;;                                                                       (* 347 *)
  prod <- vzip (fun e d => if square then fmul e (fmul d d) else fmul e d) bin_effect dx ;;           (* 350 *)
  full_bin_effect <- take (fzero :: fzero :: cumsum64 prod) ind ;;                                    (* 351-352 *)
  l0 <- getn limits 0 ;;
  left <- take (l0 :: init_ limits ++ [BIGM64]) ind ;;                                                (* 355 *)
  let deltas := map (fun p => let d := fsub (fst p) (snd p) in if Bltb d fzero then fzero else d) (combine x left) in  (* 356-357 *)
  let deltas := if square then map (fun d => fmul d d) deltas else deltas in                          (* 358 *)
  be_last <- getz bin_effect (-1) ;;
  eff <- take (fzero :: bin_effect ++ [be_last]) ind ;;                                               (* 359-360 *)
  Ok (map (fun p => fadd (fst p) (fmul (fst (snd p)) (snd (snd p)))) (combine full_bin_effect (combine deltas eff))).

(** utils.py:367-420  compute_ale_params *)
Record params64 := mkP64 { p64_limits : list b64; p64_dx : list b64; p64_points : list nat;
                           p64_effect : list b64; p64_var : list b64; p64_est : list b64 }.
Definition compute_ale_params64 (xs df_dxs limits : list b64) : res params64 :=
  let dx := map (fun p => fsub (snd p) (fst p)) (combine limits (tl limits)) in                       (* 398 *)
  '(be, ppb) <- compute_bin_effect64 xs df_dxs limits ;;                                              (* 401 *)
  '(bv, bev) <- compute_bin_variance64 xs df_dxs limits be ;;                                         (* 404 *)
  e <- fill_nans64 be ;;                                                                              (* 409-411 *)
  v <- fill_nans64 bv ;;
  w <- fill_nans64 bev ;;
  Ok (mkP64 limits dx ppb e v w).

(** utils.py:445-479  compute_jacobian_numerically on a float64 array of width [dim] *)
Definition compute_jacobian64 (model : list (list b64) -> list b64) (dim : nat) (X : list (list b64)) (eps : b64)
  : res (list (list b64)) :=
  cols <- mapM (fun f =>
             d <- vzip fsub (model (map (fun r => list_updn r f (fun v => fadd v eps)) X)) (model X) ;;   (* 476-478 *)
             let q := map (fun v => fdiv v eps) d in
             if Nat.eqb (length q) (length X) then Ok q
             else match q with [a] => Ok (repeat a (length X)) | _ => Raise ValueError end) (seq 0 dim) ;;
  Ok (map (fun i => map (fun c => nth i c fnan) cols) (seq 0 (length X))).

(** ** effector/bin_splitting.py, Fixed *)

(** np.unique: sorted distinct values (bin_splitting.py:82, 112, 119) *)
Fixpoint uinsert64 (a : b64) (l : list b64) : list b64 :=
  match l with
  | [] => [a]
  | b :: l' => if Bltb a b then a :: b :: l' else if Beqb a b then b :: l' else b :: uinsert64 a l'
  end.
Definition unique64 (l : list b64) : list b64 := fold_right uinsert64 [] l.

(** bin_splitting.py:59-76  _bin_valid with an integer min_points (utils.py:96 is the closed-interval filter) *)
Definition bin_valid64 (xs : list b64) (m : nat) (start stop : b64) : bool :=
  Nat.leb m (count (fun x => Bleb start x && Bleb x stop) xs).
Definition all_valid64 (xs : list b64) (m : nat) (l : list b64) : bool :=
  forallb (fun p => bin_valid64 xs m (fst p) (snd p)) (combine l (tl l)).

(** bin_splitting.py:104-127  _is_categorical: [None] if it is not, else the limits ([None] for False) *)
Definition cat_limits64 (xs : list b64) (m : nat) : res (option (list b64)) :=
  let uniq := unique64 xs in
  let dx := map (fun p => fsub (snd p) (fst p)) (combine uniq (tl uniq)) in                           (* 120 *)
  u0 <- getn uniq 0 ;; d0 <- getn dx 0 ;; uk <- getz uniq (-1) ;; dk <- getz dx (-1) ;;
  let two := fofZ 2 in
  let lims := fsub u0 (fdiv d0 two) :: map (fun p => fadd (fst p) (fdiv (snd p) two)) (combine uniq dx)
              ++ [fadd uk (fdiv dk two)] in                                                           (* 121 *)
  Ok (if all_valid64 xs m lims then Some lims else None).

(** bin_splitting.py:363-382  Fixed.find with an integer min_points; [None] stands for the limits False *)
Definition fixed_find64 (xs : list b64) (lo hi : b64) (nof_bins m cat_limit : nat) : res (option (list b64)) :=
  if Nat.leb (length (unique64 xs)) cat_limit then cat_limits64 xs m                                  (* 369-370 *)
  else let limits := linspace64 lo hi (nof_bins + 1) in                                               (* 372 *)
       Ok (if all_valid64 xs m limits then Some limits else None).                                    (* 373-375 *)

(** ** effector/global_effect_ale.py *)

(** global_effect_ale.py:309-348  ALE._fit_feature with bm.Fixed(nof_bins, m, cat_limit) and the axis limits lo, hi of
    the feature ("fixed" is nof_bins = 20, m = 0, cat_limit = 15) *)
Definition in_range64 (lo hi : b64) (f : nat) (r : list b64) : bool := Bleb lo (nth f r fnan) && Bleb (nth f r fnan) hi.
Definition ale_fit_feature64 (X : list (list b64)) (model : list (list b64) -> list b64) (lo hi : b64) (f nof_bins m cat_limit : nat)
  : res params64 :=
  let d := filter (in_range64 lo hi f) X in                                                           (* 312-316 *)
  r <- fixed_find64 (col64 d f) lo hi nof_bins m cat_limit ;;                                         (* 325 *)
  match r with
  | None => Raise AssertionError                                                                      (* 329 *)
  | Some l =>
      let '(l', effs) := compute_local_effects64 d model l f in                                       (* 339-341 *)
      es <- effs ;;
      compute_ale_params64 (col64 d f) es l'                                                          (* 344-346 *)
  end.

(** helpers.py:45-46  the default axis limits of a feature *)
Definition axis_limits64 (X : list (list b64)) (f : nat) : res (b64 * b64) :=
  lo <- np_min64 (col64 X f) ;; hi <- np_max64 (col64 X f) ;; Ok (lo, hi).

(** global_effect_ale.py:92-97  ALEBase._eval_unnorm (the mean effect) *)
Definition eval_unnorm64 (p : params64) (xs : list b64) : res (list b64) :=
  compute_accumulated_effect64 xs (p64_limits p) (p64_effect p) (p64_dx p) false.
(** global_effect_ale.py:66-68  the "zero_start" constant: partial_eval(np.array([start])).item() *)
Definition norm_start64 (p : params64) (start : b64) : res b64 :=
  ys <- eval_unnorm64 p [start] ;; getn ys 0.
(** utils_integrate.py:42-44  the positions of mean_1d_linspace: 0.5 * (x[:-1] + x[1:]) *)
Definition half64 : b64 := fdiv (fofZ 1) (fofZ 2).
Definition midpoints64 (start stop : b64) (n : nat) : list b64 :=
  let x := linspace64 start stop n in
  map (fun p => fmul half64 (fadd (fst p) (snd p))) (combine (init_ x) (tl x)).
(** global_effect_ale.py:144-153  eval: y - norm_const when centering *)
Definition eval64 (p : params64) (norm : option b64) (xs : list b64) : res (list b64) :=
  ys <- eval_unnorm64 p xs ;;
  Ok (match norm with None => ys | Some c => map (fun y => fsub y c) ys end).
