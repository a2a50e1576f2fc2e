(** ALESpec: what an accumulated local effect is, written down without reference to the code (C71-C76). *)
From Verif Require Import Base Spec Utils Helpers.
(** [store] (Utils.v) is the value an array of a given dtype keeps, [pyval] (Helpers.v) a Python argument, [with_feature] (Spec.v)
    replaces one entry of an instance. *)
Open Scope Qc_scope.
Open Scope list_scope.

(** Mean and population variance of a list, undefined when there are too few values. *)
Definition mean_of (m : list Qc) : option Qc := match m with [] => None | _ => Some (mean m) end.
Definition variance_of (m : list Qc) : option Qc := match m with [] => None | [_] => None | _ => Some (variance m) end.

(** [y] is [x] with the missing entries filled in: linearly between the nearest known neighbours, with the nearest
    known value before the first and after the last known entry. *)
Definition filled (x : list (option Qc)) (y : list Qc) : Prop :=
  length y = length x /\
  (exists j v, nth j x None = Some v) /\
  (forall i v, nth i x None = Some v -> y@i = v) /\
  (forall i a va b vb, nth i x None = None -> nearest_left x i a va -> nearest_right x i b vb -> y@i = lerp a va b vb i) /\
  (forall i a va, (i < length x)%nat -> nth i x None = None -> nearest_left x i a va ->
     (forall j, (i < j)%nat -> nth j x None = None) -> y@i = va) /\
  (forall i b vb, nth i x None = None -> nearest_right x i b vb ->
     (forall j, (j < i)%nat -> nth j x None = None) -> y@i = vb).

(** The instances of [Z] whose feature [f] lies in bin [k]. *)
Definition bin_of (l : list Qc) (f : nat) (Z : list (list Qc)) (k : nat) : list (list Qc) :=
  filter (fun r => in_bin l k r@f) Z.

(** [slopes k] are the slopes of the instances of bin [k] of the binning [l]; [be] the bin effects (their mean) and [bv]
    the bin variances, filled in where a bin has no instance / fewer than two. *)
Definition bin_means (l : list Qc) (slopes : nat -> list Qc) (be : list Qc) : Prop :=
  filled (map (fun k => mean_of (slopes k)) (seq 0 (length l - 1))) be.
Definition bin_variances (l : list Qc) (slopes : nat -> list Qc) (bv : list Qc) : Prop :=
  filled (map (fun k => variance_of (slopes k)) (seq 0 (length l - 1))) bv.

(** What centering subtracts from the curve: nothing, its value at the start, or its mean over the 99 midpoints of 100
    equally spaced points of the axis range. *)
Inductive centering := Uncentered | FromStart | FromMean.
Definition middle (lo hi : Qc) (i : nat) : Qc := (grid lo hi 99 i + grid lo hi 99 (S i)) / Q2Qc 2.
Definition offset (ce : centering) (lo hi : Qc) (curve : Qc -> Qc) : Qc :=
  match ce with
  | Uncentered => 0
  | FromStart => curve lo
  | FromMean => mean (map (fun i => curve (middle lo hi i)) (seq 0 99))
  end.

(** The equal-width binning with [n] bins; the binning around [u_0 < ... < u_(d-1)] (limits half-way between neighbours,
    the outer ones mirrored); and a binning with the last limit moved by 1e-8. *)
Definition equal_width (lo hi : Qc) (n : nat) (l : list Qc) : Prop :=
  length l = S n /\ forall i, (i <= n)%nat -> l@i = grid lo hi n i.
Definition around (u l : list Qc) : Prop :=
  length l = S (length u) /\
  l@0 = u@0 - (u@1 - u@0) / Q2Qc 2 /\
  (forall k, (S k < length u)%nat -> l@(S k) = (u@k + u@(S k)) / Q2Qc 2) /\
  l@(length u) = u@(length u - 1) + (u@(length u - 1) - u@(length u - 2)) / Q2Qc 2.
Definition widened (l l' : list Qc) : Prop :=
  length l' = length l /\
  (forall i, (S i < length l)%nat -> l'@i = l@i) /\
  l'@(length l - 1) = l@(length l - 1) + Q2Qc (1 # 100000000).

(** The distinct values of [xs], in increasing order. *)
Definition distinct_values (xs u : list Qc) : Prop := increasing u /\ forall x, In x u <-> In x xs.

(** Equal-width bins for a feature with more than [cl] distinct values, otherwise one bin around each value. *)
Definition fixed_binning (n cl : nat) (xs : list Qc) (lo hi : Qc) (l : list Qc) : Prop :=
  exists u, distinct_values xs u /\
    (((2 <= length u <= cl)%nat /\ around u l) \/ ((cl < length u)%nat /\ equal_width lo hi n l)).

(** The instances of [X] whose feature [f] lies in the axis range. *)
Definition inside_range (lo hi : Qc) (f : nat) (X : list (list Qc)) : list (list Qc) :=
  filter (fun r => (lo <=? r@f) && (r@f <=? hi)) X.

(** The finite difference of the model over bin [k], for the instance [r]: the feature is set to the right and to the left
    limit of the bin (truncated when the data array holds integers) and the difference divided by the width of the first bin. *)
Definition slope (d : dtype) (g : list Qc -> Qc) (f : nat) (l : list Qc) (k : nat) (r : list Qc) : Qc :=
  (g (with_feature r f (store d l@(S k))) - g (with_feature r f (store d l@k))) / (l@1 - l@0).

(** Instances paired with their row of effects. *)
Definition bin_pairs (l : list Qc) (f : nat) (Z : list (list Qc * list Qc)) (k : nat) := filter (fun q => in_bin l k (fst q)@f) Z.

(** The centering requested by an argument of eval/fit: True means "zero_integral". *)
Definition requested (cv : pyval) (ce : centering) : Prop :=
  (cv = PyBool false /\ ce = Uncentered) \/ (cv = PyStr "zero_start" /\ ce = FromStart) \/
  ((cv = PyBool true \/ cv = PyStr "zero_integral") /\ ce = FromMean).
