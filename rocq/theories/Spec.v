(** Spec: the small, model-independent vocabulary in which the properties are stated. *)
From Verif Require Import Base.
Open Scope Qc_scope.

(** The [k]-th limit / entry. *)
Notation "l @ k" := (nth k l 0) (at level 9, format "l @ k").

(** [l] is strictly increasing. *)
Definition increasing (l : list Qc) : Prop :=
  forall i j, (i < j)%nat -> (j < length l)%nat -> l@i < l@j.

(** [x] lies between the first and the last limit. *)
Definition covered (l : list Qc) (x : Qc) : Prop := l@0 <= x /\ x <= l@(length l - 1).

(** Membership of [x] in bin number [k] of the binning [l] (bins are numbered 0 .. length l - 2):
    closed on the left, open on the right, except that the last bin includes its right edge. *)
Definition in_bin (l : list Qc) (k : nat) (x : Qc) : bool :=
  (l@k <=? x) && ((x <? l@(S k)) || (Nat.eqb (k + 2) (length l) && (x =? l@(S k)))).

(** Effects of the instances whose feature value lies in bin [k]. *)
Definition members (l xs es : list Qc) (k : nat) : list Qc :=
  map snd (filter (fun p => in_bin l k (fst p)) (combine xs es)).

Definition mean (l : list Qc) : Qc := sumq l / qn (length l).
(** Population variance. *)
Definition variance (l : list Qc) : Qc := mean (map (fun e => (e - mean l) * (e - mean l)) l).

(** [x] clipped to the interval [a, b]. *)
Definition clip (a b x : Qc) : Qc := Qcmin b (Qcmax a x).

(** Integral from -infinity to [x] of the step function which is [e_k] on [l_k, l_{k+1}] and 0
    elsewhere: every bin contributes its effect times the length of the part of the bin left of x. *)
Definition step_integral (l es : list Qc) (x : Qc) : Qc :=
  sumq (map (fun k => es@k * (clip l@k l@(S k) x - l@k)) (seq 0 (length l - 1))).

(** NaN filling: [nearest_left x i a va]: position [a] < [i] holds the value [va] and everything
    strictly between is NaN ([None]); symmetrically on the right. *)
Definition nearest_left (x : list (option Qc)) (i a : nat) (va : Qc) : Prop :=
  (a < i)%nat /\ nth a x None = Some va /\ forall j, (a < j < i)%nat -> nth j x None = None.
Definition nearest_right (x : list (option Qc)) (i b : nat) (vb : Qc) : Prop :=
  (i < b)%nat /\ nth b x None = Some vb /\ forall j, (i < j < b)%nat -> nth j x None = None.
(** Linear interpolation between (a, va) and (b, vb) at i. *)
Definition lerp (a : nat) (va : Qc) (b : nat) (vb : Qc) (i : nat) : Qc :=
  va + (vb - va) * ((qn i - qn a) / (qn b - qn a)).

(** Same with squared lengths (the [square=True] variant). *)
Definition step_integral_sq (l es : list Qc) (x : Qc) : Qc :=
  sumq (map (fun k => es@k * ((clip l@k l@(S k) x - l@k) * (clip l@k l@(S k) x - l@k)))
            (seq 0 (length l - 1))).

(** The instance [r] with feature [s] replaced by [v]. *)
Definition with_feature (r : list Qc) (s : nat) (v : Qc) : list Qc := list_set r s v.

(** The affine model b + sum_j a_j x_j. *)
Definition affine (b : Qc) (a : list Qc) (r : list Qc) : Qc :=
  b + sumq (map (fun j => a@j * r@j) (seq 0 (length a))).

(** ** Binnings (C11-C17) *)
From Coq Require Export Sorted.

(** The [i]-th point of the equal-width grid with [K] bins on [lo, hi]. *)
Definition grid (lo hi : Qc) (K i : nat) : Qc := lo + qn i * ((hi - lo) / qn K).
(** [l] is a binning of that grid: grid points at strictly increasing positions, the first one is number 0
    (= lo) and the last one number K (= hi). *)
Definition grid_binning (lo hi : Qc) (K : nat) (l : list Qc) : Prop :=
  exists mid, StronglySorted lt (0 :: mid ++ [K])%nat /\ l = map (grid lo hi K) (0 :: mid ++ [K])%nat.
(** Number of instances in the closed interval [a, c], and their effects. *)
Definition points_in (xs : list Qc) (a c : Qc) : nat := count (fun x => (a <=? x) && (x <=? c)) xs.
Definition effects_in (xs es : list Qc) (a c : Qc) : list Qc :=
  map snd (filter (fun p => (a <=? fst p) && (fst p <=? c)) (combine xs es)).
(** Every closed bin of [l] holds at least [m] instances. *)
Definition populated (xs : list Qc) (m : nat) (l : list Qc) : Prop :=
  forall k, (S k < length l)%nat -> (m <= points_in xs l@k l@(S k))%nat.
(** Cost of one bin: variance * width * discount factor, 1e8 when infeasible. *)
Definition bin_loss (xs es : list Qc) (m : nat) (discount a c : Qc) : Qc :=
  if Nat.ltb (points_in xs a c) m then Q2Qc 100000000
  else variance (effects_in xs es a c) * (c - a) * (1 - discount * (qn (points_in xs a c) / qn (length xs))).
(** Total cost of a binning. *)
Definition binning_loss (xs es : list Qc) (m : nat) (discount : Qc) (l : list Qc) : Qc :=
  sumq (map (fun k => bin_loss xs es m discount l@k l@(S k)) (seq 0 (length l - 1))).
(** Number of times the value [v] occurs. *)
Definition occurrences (xs : list Qc) (v : Qc) : nat := count (fun x => x =? v) xs.
