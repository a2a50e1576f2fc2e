(** FloatAdapt: the adaptive binnings (Greedy, DP) and RHALE._fit_feature in binary64. The order in which np.var adds is
    numpy's choice, so the variance is a parameter [var] (any function of the selected effects); the theorems hold for all of them.
    Integer min_points only. *)
From Coq Require Import Reals.
From Flocq Require Import Core.
From Flocq Require Import IEEE754.BinarySingleNaN.
From Verif Require Import Base Numpy FloatModel.

Definition fone : b64 := fofZ 1.
Definition fabs : b64 -> b64 := Babs.
(** numpy's default rtol = 1e-05: the float64 0x1.4f8b588e368f1p-17 *)
Definition RTOL64 : b64 := @B754_finite 53 1024 false 5902958103587057 (-69) eq_refl.
(** np.allclose(a, b) for finite scalars: |a - b| <= atol + rtol * |b|, atol = 1e-08 (bin_splitting.py:98) *)
Definition allclose64 (a b : b64) : bool := Bleb (fabs (fsub a b)) (fadd EPS64 (fmul RTOL64 (fabs b))).

Section Adapt.
  (** [var]: np.var; [xs], [es]: the feature and effect columns; [lo], [hi]: xs_min, xs_max; [m]: min_points *)
  Variables (var : list b64 -> b64) (xs es : list b64) (lo hi : b64) (m : nat) (discount : b64).

  (** utils.py:67-104  filter_points_in_bin, the effects *)
  Definition selected64 (start stop : b64) : list b64 :=
    map snd (filter (fun p => Bleb start (fst p) && Bleb (fst p) stop) (combine xs es)).
  (** bin_splitting.py:41-57  _bin_cost *)
  Definition bin_cost64 (start stop : b64) : b64 :=
    let sel := selected64 start stop in
    if Nat.ltb (length sel) m then BIGM64                                                             (* 52-53 *)
    else fmul (fmul (var sel) (fsub stop start))
              (fsub fone (fmul discount (fdiv (fofn (length sel)) (fofn (length xs))))).              (* 55-56 *)

  (** bin_splitting.py:75-88  _none_valid_binning *)
  Definition none_valid64 : bool := Nat.eqb (length (unique64 xs)) 1 || Nat.ltb (length xs) m.
  (** bin_splitting.py:90-102  _only_one_bin_possible *)
  Definition only_one64 : bool := allclose64 lo hi || (Nat.leb m (length es) && Nat.ltb (length es) (2 * m)).

  (** bin_splitting.py:203-229  whether the bin that starts at [left] is closed at limit i+1 *)
  Definition close64 (n : nat) (limits : list b64) (left : b64) (i : nat) : bool :=
    if Nat.eqb i (n - 1) then true                                                                    (* 204-206 *)
    else
      let l1 := nth (i + 1) limits fnan in
      let l2 := nth (i + 2) limits fnan in
      let c1 := bin_cost64 left l1 in                                                                 (* 209 *)
      let c2 := bin_cost64 left l2 in                                                                 (* 213 *)
      if bin_valid64 xs m left l1 && bin_valid64 xs m left l2 then                                    (* 217 *)
        if Beqb c1 fzero && Bltb fzero c2 then true                                                   (* 219 *)
        else if Beqb c1 fzero && Beqb c2 fzero then false                                             (* 222 *)
        else negb (Bleb c2 c1)                                                                        (* 226 *)
      else false.                                                                                     (* 229 *)
  (** bin_splitting.py:197-235  the loop; [merged] in reverse order *)
  Fixpoint greedy_loop64 (n : nat) (limits : list b64) (todo i : nat) (merged : list b64) : list b64 :=
    match todo with
    | O => merged
    | S t => greedy_loop64 n limits t (S i)
               (if close64 n limits (hd fnan merged) i then nth (i + 1) limits fnan :: merged else merged)
    end.
  (** bin_splitting.py:191-243 *)
  Definition greedy_merge64 (n : nat) : res (list b64) :=
    let limits := linspace64 lo hi (n + 1) in
    match greedy_loop64 n limits n 0 [nth 0 limits fnan] with
    | last :: prev :: rest =>
        if bin_valid64 xs m prev last then Ok (rev (last :: prev :: rest)) else Ok (rev rest ++ [last])   (* 238-239 *)
    | _ => Raise IndexError
    end.
  (** bin_splitting.py:167-244  Greedy.find *)
  Definition greedy_find64 (n cat : nat) : res (option (list b64)) :=
    if none_valid64 then Ok None
    else if Nat.leb (length (unique64 xs)) cat then cat_limits64 xs m
    else if only_one64 then Ok (Some [lo; hi])
    else l <- greedy_merge64 n ;; Ok (Some l).

  (** bin_splitting.py:252-256, 296  _index_to_position and the limits of _argmatrix_to_limits: xs_min + index * dx *)
  Definition position64 (K i : nat) : b64 := fadd lo (fmul (fofn i) (fdiv (fsub hi lo) (fofn K))).
  (** bin_splitting.py:258-273  _cost_of_move *)
  Definition cost64 (K before next : nat) : b64 :=
    if Nat.ltb next before then BIGM64
    else if Nat.eqb before next then fzero
    else bin_cost64 (position64 K before) (position64 K next).
  (** np.min and np.argmin (348-349): the first NaN if there is one, else the first smallest *)
  Fixpoint argmin64 (best : b64) (bi : nat) (j : nat) (l : list b64) : b64 * nat :=
    match l with
    | [] => (best, bi)
    | a :: l' => if negb (is_nan best) && (is_nan a || Bltb a best) then argmin64 a j (S j) l' else argmin64 best bi (S j) l'
    end.
  Definition min_argmin64 (l : list b64) : b64 * nat := match l with [] => (fnan, 0%nat) | a :: l' => argmin64 a 0 1 l' end.
  (** bin_splitting.py:336-349  one column of matrix and argmatrix *)
  Definition dp_column64 (K : nat) (prev : list b64) : list (b64 * nat) :=
    map (fun next => min_argmin64 (map (fun before => fadd (nth before prev fnan) (cost64 K before next)) (seq 0 (K + 1)))) (seq 0 (K + 1)).
  Fixpoint dp_columns64 (K n : nat) (col : list b64) (acc : list (list nat)) : list (list nat) :=
    match n with
    | O => acc
    | S n' => let c := dp_column64 K col in dp_columns64 K n' (map fst c) (map snd c :: acc)
    end.
  (** bin_splitting.py:280-282  follow argmatrix backwards *)
  Fixpoint backtrack64 (cur : nat) (args : list (list nat)) : list nat :=
    match args with [] => [] | a :: args' => nth cur a 0%nat :: backtrack64 (nth cur a 0%nat) args' end.
  (** bin_splitting.py:289-294  drop consecutive duplicates *)
  Fixpoint dedup64 (before : option nat) (l : list nat) : list nat :=
    match l with
    | [] => []
    | a :: l' => if match before with Some c => Nat.eqb c a | None => false end then dedup64 before l' else a :: dedup64 (Some a) l'
    end.
  (** bin_splitting.py:330-349, 280-286 *)
  Definition dp_path64 (K : nat) : list nat :=
    0%nat :: rev (backtrack64 K (dp_columns64 K (K - 1) (map (cost64 K 0) (seq 0 (K + 1))) [])) ++ [K].
  (** bin_splitting.py:275-300  _argmatrix_to_limits *)
  Definition dp_limits64 (K : nat) : list b64 := map (position64 K) (dedup64 None (dp_path64 K)).
  (** bin_splitting.py:302-355  DP.find *)
  Definition dp_find64 (K cat : nat) : res (option (list b64)) :=
    if none_valid64 then Ok None
    else if Nat.leb (length (unique64 xs)) cat then cat_limits64 xs m
    else if only_one64 then Ok (Some [lo; hi])
    else match K with
         | O => Raise IndexError
         | 1%nat => Ok (Some [lo; hi])
         | _ => Ok (Some (dp_limits64 K))
         end.
End Adapt.

(** binning_methods.py:6-39  the method objects; the strings "fixed" and "greedy" are BFixed 20 0 15 and
    BGreedy 100 0.3 0 15 (binning_methods.py:75-85) *)
Inductive binning64 := BFixed (nof m cat : nat) | BGreedy (n : nat) (discount : b64) (m cat : nat) | BDP (K : nat) (discount : b64) (m cat : nat).
(** binning_methods.py:42-94  find_limits *)
Definition find64 (var : list b64 -> b64) (xs es : list b64) (lo hi : b64) (b : binning64) : res (option (list b64)) :=
  match b with
  | BFixed n m cat => fixed_find64 xs lo hi n m cat
  | BGreedy n d m cat => greedy_find64 var xs es lo hi m d n cat
  | BDP K d m cat => dp_find64 var xs es lo hi m d K cat
  end.
(** global_effect_ale.py:474-512  RHALE._fit_feature; [E] is the Jacobian (data_effect) *)
Definition rhale_fit_feature64 (var : list b64 -> b64) (X E : list (list b64)) (lo hi : b64) (f : nat) (b : binning64) : res params64 :=
  let d := filter (fun p => in_range64 lo hi f (fst p)) (combine X E) in                              (* 483-489 *)
  let xs := col64 (map fst d) f in
  let es := col64 (map snd d) f in
  r <- find64 var xs es lo hi b ;;                                                                    (* 492-494 *)
  match r with
  | None => Raise AssertionError                                                                      (* 498 *)
  | Some l => compute_ale_params64 xs es l                                                            (* 508-510 *)
  end.
