(** FloatPDP: PDP and d-PDP objects (effector/global_effect_pdp.py) in IEEE-754 binary64.
    One feature of one object whose dataset is [p64_rows]: _predict, _fit_feature, eval. The call history, the options'
    validation and the dtype are in the exact model (GlobalPDP.v); here it is the arithmetic that is exact.
    Simplified: the model is row-wise (one output per row, not depending on the other rows of the batch). *)
From Coq Require Import Reals Permutation.
From Flocq Require Import Core.
From Flocq Require Import IEEE754.BinarySingleNaN.
From Verif Require Import Base Numpy FloatModel FloatMean FloatVar FloatDer.

(** the order in which numpy adds n numbers: which ones, and in which bracketing. It depends on the number of summands and
    on the memory layout (pairwise along a contiguous axis, one after the other along axis 0) but not on the values. *)
Inductive order := At (i : nat) | Add (a b : order).
Fixpoint places (o : order) : list nat := match o with At i => [i] | Add a b => places a ++ places b end.
Fixpoint laid (o : order) (l : list b64) : tree := match o with At i => Leaf (nth i l fzero) | Add a b => Plus (laid a l) (laid b l) end.
Fixpoint steps (o : order) : nat := match o with At _ => 0 | Add a b => S (Nat.max (steps a) (steps b)) end.
(** every summand is added once *)
Definition complete (o : nat -> order) : Prop := forall n, (1 <= n)%nat -> Permutation (places (o n)) (seq 0 n).

(** np.mean (global_effect_pdp.py:69, 180): np.add.reduce, then a division by the count *)
Definition mean64 (o : nat -> order) (l : list b64) : b64 := fdiv (tsum (laid (o (length l)) l)) (fofn (length l)).
(** np.sqrt *)
Definition fsqrt : b64 -> b64 := Bsqrt mode_NE.
(** np.std (global_effect_pdp.py:186): the deviations from the mean, squared, their mean, its square root *)
Definition std64 (o : nat -> order) (l : list b64) : b64 := fsqrt (mean64 o (map (sqdev (mean64 o l)) l)).

(** what an object averages: the model's outputs (PDP), the Jacobian's entries, or central differences (DerPDP) *)
Inductive target64 :=
| Outputs (g : list b64 -> b64)
| Jacobian (J : list b64 -> list b64)
| Differences (g : list b64 -> b64).
(** global_effect_pdp.py:36-48, 463-479, 545-566 (_predict, one row at one position) *)
Definition ice64 (m : target64) (f : nat) (r : list b64) (x : b64) : b64 :=
  match m with
  | Outputs g => g (list_set r f x)
  | Jacobian J => nth f (J (list_set r f x)) fnan
  | Differences g => fdiv (fsub (g (list_set r f (fadd x H64))) (g (list_set r f (fsub x H64)))) HH64
  end.

Record pdp64 := mk_pdp64 {
  p64_target : target64; p64_rows : list (list b64); p64_feature : nat; p64_lo : b64; p64_hi : b64;
  p64_points : nat;                   (* points_for_centering *)
  p64_axis0 : nat -> order;           (* the order of np.mean(.., axis=0) *)
  p64_axis1 : nat -> order            (* the order of np.mean(.., axis=1) and np.std(.., axis=1) *)
}.
Inductive centering64 := NoCentering | ZeroIntegral | ZeroStart.

(** global_effect_pdp.py:57-60  the instances between the limits *)
Definition kept64 (p : pdp64) : list (list b64) := filter (in_range64 (p64_lo p) (p64_hi p) (p64_feature p)) (p64_rows p).
(** global_effect_pdp.py:36-48  the (T, N) matrix of the ICE curves at xs *)
Definition predict64 (p : pdp64) (xs : list b64) : list (list b64) :=
  map (fun x => map (fun r => ice64 (p64_target p) (p64_feature p) r x) (kept64 p)) xs.
Definition column64 (yy : list (list b64)) (i : nat) : list b64 := map (fun y => nth i y fnan) yy.
(** global_effect_pdp.py:62-77  norm_const: one constant per instance *)
Definition norm_const64 (p : pdp64) (c : centering64) : option (list b64) :=
  match c with
  | ZeroIntegral =>
      let y := predict64 p (linspace64 (p64_lo p) (p64_hi p) (p64_points p)) in
      Some (map (fun i => mean64 (p64_axis0 p) (column64 y i)) (seq 0 (length (kept64 p))))
  | ZeroStart => Some (nth 0 (predict64 p [p64_lo p]) [])
  | NoCentering => None
  end.
(** global_effect_pdp.py:171-178  the (centered) ICE curves *)
Definition centered64 (p : pdp64) (c : centering64) (xs : list b64) : list (list b64) :=
  match norm_const64 p c with
  | Some ns => map (fun y => map (fun q => fsub (fst q) (snd q)) (combine y ns)) (predict64 p xs)
  | None => predict64 p xs
  end.
(** global_effect_pdp.py:162-189  eval(feature, xs, heterogeneity=True, centering=c) on an object that has not fitted this
    feature (or has fitted it with this centering): the means and the standard deviations *)
Definition pdp_eval64 (p : pdp64) (c : centering64) (xs : list b64) : res (list b64 * list b64) :=
  passert (Bltb (p64_lo p) (p64_hi p)) ;;
  let yy := centered64 p c xs in
  Ok (map (mean64 (p64_axis1 p)) yy, map (std64 (p64_axis1 p)) yy).
