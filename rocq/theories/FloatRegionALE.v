(** FloatRegionALE: RegionalALE and RegionalRHALE in IEEE-754 binary64: the heterogeneity they give to the search for subregions
    (FloatRegion.v). *)
From Coq Require Import Reals.
From Flocq Require Import Core.
From Flocq Require Import IEEE754.BinarySingleNaN.
From Verif Require Import Base Numpy FloatModel FloatPDP FloatAdapt FloatRegion.

(** What heter reads: min_points_per_subregion, the feature of interest, how _fit_feature computes the bins of a region from its rows
    and the limits of the feature there, the centering given to fit, and the order of np.mean in mean_1d_linspace. The object of a
    region is built with nof_instances="all". *)
Record aleheter64 := mk_aleheter64 {
  r64_feature : nat; r64_min_points : nat; r64_fit : list row64 -> b64 -> b64 -> res params64;
  r64_centering : centering64; r64_mean : nat -> order }.
(** regional_effect_ale.py:223-225  ALE on the rows of a region, Fixed(nof, m, cat); instance_effects is not read *)
Definition region_ale64 (f : nat) (model : list (list b64) -> list b64) (nof m cat : nat) (data : list row64) (lo hi : b64) : res params64 :=
  ale_fit_feature64 (map fst data) model lo hi f nof m cat.
(** regional_effect_ale.py:71-73  RHALE on the rows of a region; the Jacobian is instance_effects, cut with the rows *)
Definition region_rhale64 (f : nat) (var : list b64 -> b64) (b : binning64) (data : list row64) (lo hi : b64) : res params64 :=
  rhale_fit_feature64 var (map fst data) (map snd data) lo hi f b.

(** global_effect_ale.py:51-68  _compute_norm_const (utils_integrate.py:34-45, 100 points), computed by fit and not used here unless it
    raises *)
Definition norm_const64 (mean : nat -> order) (c : centering64) (p : params64) (lo hi : b64) : res (option b64) :=
  match c with
  | NoCentering => Ok None
  | ZeroIntegral => ys <- eval_unnorm64 p (midpoints64 lo hi 100) ;; Ok (Some (mean64 mean ys))
  | ZeroStart => y <- norm_start64 p lo ;; Ok (Some y)
  end.
(** global_effect_ale.py:95-102  the heterogeneity part of _eval_unnorm: the bins' standard deviations, accumulated *)
Definition eval_std64 (p : params64) (xs : list b64) : res (list b64) :=
  compute_accumulated_effect64 xs (p64_limits p) (map fsqrt (p64_var p)) (p64_dx p) false.
(** global_effect_ale.py:144-157  eval(xs, heterogeneity=True) without centering on a fitted object *)
Definition eval_heter64 (p : params64) (lo hi : b64) (xs : list b64) : res (list b64 * list b64) :=
  passert (Bltb lo hi) ;; ys <- eval_unnorm64 p xs ;; zs <- eval_std64 p xs ;; Ok (ys, zs).
(** regional_effect_ale.py:67-81, 219-233  heter *)
Definition ale_heter64 (c : aleheter64) (data : list row64) : res b64 :=
  if Nat.ltb (length data) (r64_min_points c) then Ok BIGM64                                   (* 68-69, 220-221 *)
  else '(lo, hi) <- axis_limits64 (map fst data) (r64_feature c) ;;                            (* 71, 223; 78, 230 *)
       match p <- r64_fit c data lo hi ;; k <- norm_const64 (r64_mean c) (r64_centering c) p lo hi ;; Ok p with (* 73, 225 *)
       | Raise _ => Ok BIGM64                                                                  (* 74-75, 226-227 *)
       | Ok p => '(_, zs) <- eval_heter64 p lo hi [hi] ;;                                      (* 79-80, 231-232; outside the try *)
                 getn zs 0                                                                     (* 81, 233 *)
       end.
