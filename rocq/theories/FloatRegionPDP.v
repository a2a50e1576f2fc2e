(** FloatRegionPDP: RegionalPDP and RegionalDerPDP in IEEE-754 binary64: the heterogeneity they give to the search for subregions
    (FloatRegion.v), and what it approximates. *)
From Coq Require Import Reals Permutation.
From Flocq Require Import Core.
From Flocq Require Import IEEE754.BinarySingleNaN.
From Verif Require Import Base Numpy FloatModel FloatFacts FloatMean FloatVar FloatDer FloatPDP FloatPDPSpec FloatRegion.
Open Scope R_scope.

(** What heter reads: the model (PDP) or its derivative (DerPDP), the feature of interest, the limits of the regional object for it
    (regional_effect.py:45-49: given, or from all of the data), min_points_per_subregion, and the orders of np.std(.., axis=1) and
    np.mean(z). Simplified: nof_instances="all" (every row of the region is used) and a row-wise model. *)
Record pdpheter64 := mk_pdpheter64 {
  h64_target : target64; h64_feature : nat; h64_lo : b64; h64_hi : b64; h64_min_points : nat;
  h64_axis1 : nat -> order; h64_mean : nat -> order }.
(** the object built on the rows of a region (regional_effect_pdp.py:43-46); its centering points do not matter, as eval is called
    without centering *)
Definition region_pdp64 (c : pdpheter64) (data : list row64) : pdp64 :=
  mk_pdp64 (h64_target c) (map fst data) (h64_feature c) (h64_lo c) (h64_hi c) 100 (h64_mean c) (h64_axis1 c).
(** regional_effect_pdp.py:56-58  ten positions between the extremes of the feature in the region *)
Definition region_points64 (c : pdpheter64) (data : list row64) : res (list b64) :=
  mn <- np_min64 (map (feat64 (h64_feature c)) data) ;; mx <- np_max64 (map (feat64 (h64_feature c)) data) ;;
  Ok (linspace64 mn mx 10).
(** regional_effect_pdp.py:38-64  heter *)
Definition pdp_heter64 (c : pdpheter64) (data : list row64) : res b64 :=
  if Nat.ltb (length data) (h64_min_points c) then Ok BIGM64                                   (* 40-41 *)
  else xs <- region_points64 c data ;;
       match pdp_eval64 (region_pdp64 c data) NoCentering xs with                             (* 59-60 *)
       | Ok (_, z) => Ok (mean64 (h64_mean c) z)                                              (* 63 *)
       | Raise _ => Ok BIGM64                                                                 (* 61-62 *)
       end.

(** ** What it should be *)
(** the exact standard deviation of the numbers the model returns at position x for the rows of the region *)
Definition ice_sd (c : pdpheter64) (data : list row64) (x : b64) : R :=
  Rsd (map (fun r => val (ice64 (h64_target c) (h64_feature c) (fst r) x)) data).
(** its exact average over the ten positions; 1e8 for a region with too few rows *)
Definition exact_heter (c : pdpheter64) (data : list row64) : R :=
  if Nat.ltb (length data) (h64_min_points c) then 100000000
  else match region_points64 c data with Ok xs => Ravg (map (ice_sd c data) xs) | Raise _ => 0 end.
(** the model returns finite numbers of size at most M for the rows of the region at the ten positions *)
Definition tame_region (c : pdpheter64) (M : R) (data : list row64) : Prop :=
  forall xs x r, region_points64 c data = Ok xs -> In x xs -> In r data ->
    fin (ice64 (h64_target c) (h64_feature c) (fst r) x) /\ Rabs (val (ice64 (h64_target c) (h64_feature c) (fst r) x)) <= M.
(** every row lies between the limits (always so when the limits are taken from the data) *)
Definition within_limits (c : pdpheter64) (data : list row64) : Prop :=
  forall r, In r data -> Bleb (h64_lo c) (feat64 (h64_feature c) r) = true /\ Bleb (feat64 (h64_feature c) r) (h64_hi c) = true.
