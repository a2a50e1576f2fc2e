(** FloatPDPSpec: what C115 - C117 compare the binary64 PDP with: exact averages and standard deviations of the numbers the
    model returned. *)
From Coq Require Import Reals Permutation.
From Flocq Require Import Core.
From Flocq Require Import IEEE754.BinarySingleNaN.
From Verif Require Import Base Numpy FloatModel FloatFacts FloatPDP.
Open Scope R_scope.

(** exact sums, averages and standard deviations of lists of reals *)
Definition Rsum (l : list R) : R := fold_right Rplus 0 l.
Definition Ravg (l : list R) : R := Rsum l / INR (length l).
Definition Rsd (l : list R) : R := sqrt (Ravg (map (fun v => (v - Ravg l) * (v - Ravg l)) l)).

(** at least one element, at most 2^40 *)
Definition small_len {A} (l : list A) : Prop := l <> [] /\ (Z.of_nat (length l) <= 2 ^ 40)%Z.

Section Object.
Variable p : pdp64.
(** the ICE value of instance r at position x, the number the model returned *)
Notation ice r x := (ice64 (p64_target p) (p64_feature p) r x).
(** the grid of zero_integral centering *)
Definition grid64 : list b64 := linspace64 (p64_lo p) (p64_hi p) (p64_points p).
(** the exact level an ICE curve is centered by: nothing, its value at the lower limit, its average over the grid *)
Definition level (c : centering64) (r : list b64) : R :=
  match c with
  | NoCentering => 0
  | ZeroStart => val (ice r (p64_lo p))
  | ZeroIntegral => Ravg (map (fun t => val (ice r t)) grid64)
  end.
Definition exact_ice (c : centering64) (x : b64) (r : list b64) : R := val (ice r x) - level c r.
Definition exact_mean (c : centering64) (x : b64) : R := Ravg (map (exact_ice c x) (kept64 p)).
Definition exact_sd (c : centering64) (x : b64) : R := Rsd (map (exact_ice c x) (kept64 p)).

(** the positions at which the model is asked for the centering *)
Definition base_points (c : centering64) : list b64 :=
  match c with NoCentering => [] | ZeroStart => [p64_lo p] | ZeroIntegral => grid64 end.
(** at position x the model returns finite numbers of size at most M *)
Definition tame_at (M : R) (x : b64) : Prop := forall r, In r (kept64 p) -> fin (ice r x) /\ Rabs (val (ice r x)) <= M.

(** the longest chain of roundings in the two averages (about log2 for pairwise summation, the count itself at worst) *)
Definition d0 : nat := S (steps (p64_axis0 p (p64_points p))).
Definition d1 : nat := S (steps (p64_axis1 p (length (kept64 p)))).
Definition mean_bound (M : R) : R := IZR (6 * Z.of_nat d1 + 2 * Z.of_nat d0 + 3) * bpow radix2 (-53) * M + 4 * bpow radix2 (-1075).
Definition sd_bound (M : R) : R := IZR (15 * Z.of_nat d1 + 2 * Z.of_nat d0 + 30) * bpow radix2 (-53) * M + bpow radix2 (-533).
End Object.
(** an object of the size the theorems are about: at least one instance between the limits, at most 2^40 instances and
    centering points, and averages in which every number is added once *)
Definition sized (p : pdp64) : Prop :=
  complete (p64_axis0 p) /\ complete (p64_axis1 p) /\ small_len (kept64 p) /\ (1 <= Z.of_nat (p64_points p) <= 2 ^ 40)%Z.
