(** Numpy: the numpy primitives called by effector, over exact rationals.
    Each definition cites the call sites in /repo it stands for; the behaviour is numpy's documented
    behaviour.  Simplification everywhere: no rounding, finite inputs only. *)
From Verif Require Import Base.
Open Scope Qc_scope.

(** A 2-D float array, row by row. All rows have the same length in every use. *)
Definition Mat := list (list Qc).
(** A possibly-NaN number: [None] is NaN. Used where the code itself creates and handles NaN
    (utils.py:140, utils.py:212, utils.py:247-276, bin_splitting.py:56, partitioning.py). *)
Notation NQ := (option Qc).

Definition lift2 (f : Qc -> Qc -> Qc) (a b : NQ) : NQ :=
  match a, b with Some x, Some y => Some (f x y) | _, _ => None end.

(** ** Indexing *)

(** [l[z]] for a Python int [z]: negative indices count from the end (e.g. utils.py:222 with ind-1). *)
Definition getz {A} (l : list A) (z : Z) : res A :=
  let i := if (z <? 0)%Z then (z + Z.of_nat (length l))%Z else z in
  if (i <? 0)%Z then Raise IndexError
  else match nth_error l (Z.to_nat i) with Some a => Ok a | None => Raise IndexError end.

(** [l[n]] for a natural number index. *)
Definition getn {A} (l : list A) (n : nat) : res A :=
  match nth_error l n with Some a => Ok a | None => Raise IndexError end.

(** [l[ind]] with an integer array (utils.py:60, 61, 352, 356, 360). *)
Definition take {A} (l : list A) (ind : list nat) : res (list A) := mapM (getn l) ind.
Definition takez {A} (l : list A) (ind : list Z) : res (list A) := mapM (getz l) ind.

(** The column [X[:, f]] (f already checked against the width; see [col_chk]). *)
Definition col (X : Mat) (f : nat) : list Qc := map (fun r => nth f r 0) X.

(** [l[:-1]] *)
Definition init_ {A} (l : list A) : list A := removelast l.

(** ** digitize (utils.py:54, 145, 218, 347) *)
Definition mono_incr (l : list Qc) : bool := forallb (fun p => fst p <=? snd p) (combine l (tl l)).
Definition mono_decr (l : list Qc) : bool := forallb (fun p => snd p <=? fst p) (combine l (tl l)).
Definition digitize1 (bins : list Qc) (x : Qc) : nat := count (fun b => b <=? x) bins.
Definition digitize1d (bins : list Qc) (x : Qc) : nat := count (fun b => x <? b) bins.
Definition digitize (xs bins : list Qc) : res (list nat) :=
  if mono_incr bins then Ok (map (digitize1 bins) xs)
  else if mono_decr bins then Ok (map (digitize1d bins) xs)
  else Raise ValueError.

(** ** bincount (utils.py:150, 151, 224, 227) *)
Definition zmax0 (l : list Z) : Z := fold_right Z.max (-1)%Z l.
Definition bincount_len (idx : list Z) (minlength : nat) : nat :=
  Nat.max minlength (Z.to_nat (zmax0 idx + 1)).
Definition bincount (idx : list Z) (minlength : nat) : res (list nat) :=
  if existsb (fun z => (z <? 0)%Z) idx then Raise ValueError
  else Ok (map (fun k => count (Z.eqb (Z.of_nat k)) idx) (seq 0 (bincount_len idx minlength))).
(** NaN-propagating sum *)
Definition nsum (l : list NQ) : NQ := fold_right (lift2 Qcplus) (Some 0) l.
Definition bincount_w (idx : list Z) (w : list NQ) (minlength : nat) : res (list NQ) :=
  if negb (Nat.eqb (length idx) (length w)) then Raise ValueError
  else if existsb (fun z => (z <? 0)%Z) idx then Raise ValueError
  else Ok (map (fun k => nsum (map snd (filter (fun p => Z.eqb (Z.of_nat k) (fst p)) (combine idx w))))
               (seq 0 (bincount_len idx minlength))).

(** ** linspace (bin_splitting.py:194, 371; utils_integrate.py:28, 42; global_effect_pdp.py;
    partitioning.py find_positions_cont): [num] equally spaced points, last one forced to [stop]. *)
Definition linspace (start stop : Qc) (num : nat) : list Qc :=
  match num with
  | O => []
  | 1%nat => [start]
  | _ => map (fun i => if Nat.eqb (S i) num then stop
                       else start + qn i * ((stop - start) / qn (num - 1))) (seq 0 num)
  end.
(** [0.5 * (x[:-1] + x[1:])] (utils_integrate.py:29, 43) *)
Definition midpoints (l : list Qc) : list Qc :=
  map (fun p => Q2Qc (1#2) * (fst p + snd p)) (combine (init_ l) (tl l)).

(** ** sums, means, variances *)
(** [np.mean] of a 1-D array; NaN (None) on an empty one. *)
Definition np_mean (l : list Qc) : NQ :=
  match l with [] => None | _ => Some (sumq l / qn (length l)) end.
(** [np.var] (population variance), NaN on an empty array (bin_splitting.py:56). *)
Definition np_var (l : list Qc) : NQ :=
  match l with
  | [] => None
  | _ => let m := sumq l / qn (length l) in
         Some (sumq (map (fun e => (e - m) * (e - m)) l) / qn (length l))
  end.
(** [cumsum] (utils.py:350) *)
Fixpoint cumsum_from (acc : Qc) (l : list Qc) : list Qc :=
  match l with [] => [] | a :: l' => (acc + a) :: cumsum_from (acc + a) l' end.
Definition cumsum (l : list Qc) : list Qc := cumsum_from 0 l.

(** [np.min] / [np.max]: ValueError on an empty array (helpers.py:45-46, utils.py:49-50). *)
Definition np_min (l : list Qc) : res Qc :=
  match l with [] => Raise ValueError | a :: l' => Ok (fold_left Qcmin l' a) end.
Definition np_max (l : list Qc) : res Qc :=
  match l with [] => Raise ValueError | a :: l' => Ok (fold_left Qcmax l' a) end.

(** ** unique (utils.py:439, bin_splitting.py:82,112-119, partitioning.py find_positions_cat):
    the sorted distinct values. *)
Fixpoint uinsert (a : Qc) (l : list Qc) : list Qc :=
  match l with
  | [] => [a]
  | b :: l' => if a <? b then a :: b :: l' else if a =? b then b :: l' else b :: uinsert a l'
  end.
Definition unique (l : list Qc) : list Qc := fold_right uinsert [] l.

(** ** element-wise arithmetic of two 1-D arrays with numpy broadcasting of length-1 arrays *)
Definition vzip {A B C} (f : A -> B -> C) (a : list A) (b : list B) : res (list C) :=
  if Nat.eqb (length a) (length b) then Ok (map (fun p => f (fst p) (snd p)) (combine a b))
  else match a, b with
       | [x], _ => Ok (map (fun y => f x y) b)
       | _, [y] => Ok (map (fun x => f x y) a)
       | _, _ => Raise ValueError
       end.

(** ** np.interp (utils.py:275): piecewise-linear interpolation of the points (xp, fp) at x,
    constant outside. [xp] increasing, non-empty (numpy raises ValueError when empty). *)
Fixpoint interp_from (x0 f0 : Qc) (pts : list (Qc * Qc)) (x : Qc) : Qc :=
  match pts with
  | [] => f0                                   (* right of the last point: flat *)
  | (x1, f1) :: pts' =>
      if x <? x1 then f0 + (f1 - f0) / (x1 - x0) * (x - x0)
      else interp_from x1 f1 pts' x
  end.
Definition interp1 (pts : list (Qc * Qc)) (x : Qc) : res Qc :=
  match pts with
  | [] => Raise ValueError
  | (x0, f0) :: pts' => if x <=? x0 then Ok f0 else Ok (interp_from x0 f0 pts' x)
  end.

(** ** argmin / min with NaN (bin_splitting.py:348-349): numpy returns NaN for min and the first NaN
    position for argmin as soon as one entry is NaN. *)
Fixpoint argmin_from (best : Qc) (bi i : nat) (l : list NQ) : NQ * nat :=
  match l with
  | [] => (Some best, bi)
  | None :: _ => (None, i)
  | Some a :: l' => if a <? best then argmin_from a i (S i) l' else argmin_from best bi (S i) l'
  end.
Definition np_min_argmin (l : list NQ) : res (NQ * nat) :=
  match l with
  | [] => Raise ValueError
  | None :: _ => Ok (None, 0%nat)
  | Some a :: l' => Ok (argmin_from a 0 1 l')
  end.

(** [np.allclose(a, b)] for scalars, default rtol=1e-5, atol=1e-8 (bin_splitting.py:98). *)
Definition allclose (a b : Qc) : bool :=
  Qcabs (a - b) <=? Q2Qc (1 # 100000000) + Q2Qc (1 # 100000) * Qcabs b.

(** Comparisons with NaN operands are false. *)
Definition nltb (a b : NQ) : bool := match a, b with Some x, Some y => x <? y | _, _ => false end.
Definition nleb (a b : NQ) : bool := match a, b with Some x, Some y => x <=? y | _, _ => false end.
Definition neqb (a b : NQ) : bool := match a, b with Some x, Some y => x =? y | _, _ => false end.
