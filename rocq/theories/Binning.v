(** Binning: model of effector/bin_splitting.py and effector/binning_methods.py. *)
From Verif Require Import Base Numpy Utils.
Open Scope Qc_scope.
Open Scope list_scope.

(** ** BinBase *)

(** The value of [BinBase.limits] after [find] (bin_splitting.py:39-40). *)
Inductive lims := LFalse | LArr (l : list Qc).

(** bin_splitting.py:12-40  the fields of a BinBase object that the algorithms read:
    data[:, feature], data_effect[:, feature], xs_min, xs_max.
    Simplification: [data_effect] has the same number of rows as [data]; where it is None (ALE, always with
    the Fixed class, which never reads it) the empty list stands for it. *)
Record binner := mkB { b_xs : list Qc; b_eff : list Qc; b_lo : Qc; b_hi : Qc }.

(** bin_splitting.py:12-31  BinBase.__init__ *)
Definition make_binner (X : data) (E : option Mat) (f : nat) (axis_limits : option (list Qc * list Qc)) : res binner :=
  '(lo, hi) <- match axis_limits with
               | Some (mins, maxs) => lo <- getn mins f ;; hi <- getn maxs f ;; Ok (lo, hi)       (* 28-29 *)
               | None => c <- getcol X f ;; lo <- np_min c ;; hi <- np_max c ;; Ok (lo, hi)
               end ;;
  c <- getcol X f ;;
  Ok (mkB c (match E with Some e => col e f | None => [] end) lo hi).

Section Base.
Variable b : binner.

(** bin_splitting.py:42-57  _bin_cost. NaN ([None]) when the bin is empty and min_points is 0 (np.var of an
    empty array). [m] is method_args["min_points"]. *)
Definition bin_cost (m : nat) (discount start stop : Qc) : NQ :=
  let nof_points := length (b_xs b) in
  let data_effect := filter_effects_in_bin (b_xs b) (b_eff b) start stop in
  if Nat.ltb (length data_effect) m then Some BIG_M                                           (* 52-53 *)
  else
    let discount_for_more_points := 1 - discount * (qn (length data_effect) / qn nof_points) in
    option_map (fun v => v * (stop - start) * discount_for_more_points) (np_var data_effect). (* 56 *)

(** bin_splitting.py:59-73  _bin_valid *)
Definition bin_valid (min_points : option nat) (start stop : Qc) : bool :=
  match min_points with
  | None => true
  | Some m => Nat.leb m (length (filter_points_in_bin (b_xs b) start stop))
  end.

(** bin_splitting.py:75-88  _none_valid_binning. [size < None] is a TypeError (line 85). *)
Definition none_valid_binning (min_points : option nat) : res bool :=
  match min_points with
  | None => Raise TypeError
  | Some m => Ok (Nat.eqb (length (unique (b_xs b))) 1 || Nat.ltb (length (b_xs b)) m)
  end.

(** bin_splitting.py:90-103  _only_one_bin_possible *)
Definition only_one_bin_possible (m : nat) : bool :=
  allclose (b_lo b) (b_hi b)
  || (Nat.leb m (length (b_eff b)) && Nat.ltb (length (b_eff b)) (2 * m)).

(** bin_splitting.py:119-121  the limits around the sorted distinct values; dx[0] raises IndexError when
    there is a single one. *)
Definition cat_limits (uniq : list Qc) : res (list Qc) :=
  let dx := diffs uniq in                                                                     (* 120 *)
  u0 <- getn uniq 0 ;; d0 <- getn dx 0 ;;
  ul <- getz uniq (-1) ;; dl <- getz dx (-1) ;;
  Ok ([u0 - d0 / Q2Qc 2]
      ++ map (fun p => fst p + snd p / Q2Qc 2) (combine uniq dx)
      ++ [ul + dl / Q2Qc 2]).                                                                 (* 121 *)

(** [all(f(l[i], l[i+1]) for i in range(len(l) - 1))] *)
Definition all_bins (f : Qc -> Qc -> bool) (l : list Qc) : bool :=
  forallb (fun p => f (fst p) (snd p)) (combine l (tl l)).

(** bin_splitting.py:105-128  _is_categorical: None when it returns False, [Some limits] when it returns True
    and has set self.limits. (Lines 114-115 set self.limits for a single value; when is_cat holds the call
    then raises IndexError at line 121, and when it does not the callers overwrite self.limits.) *)
Definition is_categorical (min_points : option nat) (cat_limit : nat) : res (option lims) :=
  let uniq := unique (b_xs b) in
  if Nat.leb (length uniq) cat_limit then                                                     (* 112 *)
    l <- cat_limits uniq ;;
    Ok (Some (if all_bins (bin_valid min_points) l then LArr l else LFalse))                  (* 124-127 *)
  else Ok None.

(** ** Greedy *)

(** bin_splitting.py:203-229  whether to close the bin that starts at [left] at limit number i+1. *)
Definition close_bin (m : nat) (discount : Qc) (n : nat) (limits : list Qc) (left : Qc) (i : nat) : bool :=
  if Nat.eqb i (n - 1) then true                                                              (* 204-206 *)
  else
    let l1 := nth (i + 1) limits 0 in
    let l2 := nth (i + 2) limits 0 in
    let bin_1_loss := bin_cost m discount left l1 in
    let bin_2_loss := bin_cost m discount left l2 in
    if bin_valid (Some m) left l1 && bin_valid (Some m) left l2 then                          (* 217 *)
      if neqb bin_1_loss (Some 0) && nltb (Some 0) bin_2_loss then true                       (* 219 *)
      else if neqb bin_1_loss (Some 0) && neqb bin_2_loss (Some 0) then false                 (* 222 *)
      else if nleb bin_2_loss bin_1_loss then false else true                                 (* 226 *)
    else false.                                                                               (* 229 *)

(** bin_splitting.py:197-235  the while loop; [merged] is merged_limits in reverse order, [todo] the number of
    remaining iterations (init_nof_bins - i). *)
Fixpoint greedy_loop (m : nat) (discount : Qc) (n : nat) (limits : list Qc) (todo i : nat) (merged : list Qc) : list Qc :=
  match todo with
  | O => merged
  | S t =>
      let left := hd 0 merged in
      greedy_loop m discount n limits t (S i)
        (if close_bin m discount n limits left i then nth (i + 1) limits 0 :: merged else merged)
  end.

(** bin_splitting.py:194-242  the merging stage. init_nof_bins = 0 leaves a single limit and
    merged_limits[-2] raises IndexError. *)
Definition greedy_merge (n : nat) (discount : Qc) (m : nat) : res (list Qc) :=
  let limits := linspace (b_lo b) (b_hi b) (n + 1) in
  match greedy_loop m discount n limits n 0 [nth 0 limits 0] with
  | last :: prev :: rest =>
      if bin_valid (Some m) prev last then Ok (rev (last :: prev :: rest))
      else Ok (rev rest ++ [last])                                                            (* 238-239 *)
  | _ => Raise IndexError
  end.

(** bin_splitting.py:167-244  Greedy.find; bin_splitting.py:160-165  Greedy.__init__ (see make_binner) *)
Definition greedy_find (init_nof_bins : nat) (discount : Qc) (min_points : option nat) (cat_limit : nat) : res lims :=
  nv <- none_valid_binning min_points ;;
  if nv then Ok LFalse
  else
    c <- is_categorical min_points cat_limit ;;
    match c with
    | Some l => Ok l
    | None =>
        match min_points with
        | None => Raise TypeError
        | Some m =>
            if only_one_bin_possible m then Ok (LArr [b_lo b; b_hi b])
            else l <- greedy_merge init_nof_bins discount m ;; Ok (LArr l)
        end
    end.

(** ** Dynamic programming *)

(** bin_splitting.py:252-256  _index_to_position *)
Definition position (K : nat) (i : nat) : Qc := b_lo b + qn i * ((b_hi b - b_lo b) / qn K).

(** bin_splitting.py:258-273  _cost_of_move *)
Definition cost_of_move (m : nat) (discount : Qc) (K before next : nat) : NQ :=
  if Nat.ltb next before then Some BIG_M
  else if Nat.eqb before next then Some 0
  else bin_cost m discount (position K before) (position K next).

(** bin_splitting.py:337-349  one column of [matrix] and of [argmatrix] from the previous column of [matrix].
    The candidate list is never empty (K + 1 entries), so np.min / np.argmin do not raise. *)
Definition dp_column (cost : nat -> nat -> NQ) (K : nat) (prev : list NQ) : list NQ * list nat :=
  let r := map (fun next =>
      match np_min_argmin (map (fun before => lift2 Qcplus (nth before prev None) (cost before next)) (seq 0 (K + 1))) with
      | Ok p => p
      | Raise _ => (None, 0%nat)
      end) (seq 0 (K + 1)) in
  (map fst r, map snd r).

(** bin_splitting.py:336-349  the columns bin_index = 1 .. n of argmatrix, last one first. *)
Fixpoint dp_columns (cost : nat -> nat -> NQ) (K n : nat) (col : list NQ) (acc : list (list nat)) : list (list nat) :=
  match n with
  | O => acc
  | S n' => let c := dp_column cost K col in dp_columns cost K n' (fst c) (snd c :: acc)
  end.

(** bin_splitting.py:280-282  follow argmatrix backwards from limit index [cur]. *)
Fixpoint backtrack (cur : nat) (args : list (list nat)) : list nat :=
  match args with
  | [] => []
  | a :: args' => let p := nth cur a 0%nat in p :: backtrack p args'
  end.

(** bin_splitting.py:289-294  drop consecutive duplicates *)
Fixpoint dedup (before : option nat) (l : list nat) : list nat :=
  match l with
  | [] => []
  | a :: l' => if match before with Some c => Nat.eqb c a | None => false end
               then dedup before l' else a :: dedup (Some a) l'
  end.

(** bin_splitting.py:330-333, 336-349, 280-286  the sequence 0 = i_0, i_1, ..., i_K = K of limit indices *)
Definition dp_path (cost : nat -> nat -> NQ) (K : nat) : list nat :=
  let col0 := map (cost 0%nat) (seq 0 (K + 1)) in                                             (* 330-333 *)
  let args := dp_columns cost K (K - 1) col0 [] in
  0%nat :: rev (backtrack K args) ++ [K].                                                     (* 285-286 *)

(** bin_splitting.py:275-300  _argmatrix_to_limits *)
Definition dp_limits (m : nat) (discount : Qc) (K : nat) : list Qc :=
  map (position K) (dedup None (dp_path (cost_of_move m discount K) K)).

(** bin_splitting.py:302-355  DP.find; bin_splitting.py:249-250  DP.__init__ (see make_binner). max_nof_bins = 0 gives a matrix without columns: IndexError (331). *)
Definition dp_find (max_nof_bins : nat) (min_points : option nat) (discount : Qc) (cat_limit : nat) : res lims :=
  nv <- none_valid_binning min_points ;;
  if nv then Ok LFalse
  else
    c <- is_categorical min_points cat_limit ;;
    match c with
    | Some l => Ok l
    | None =>
        match min_points with
        | None => Raise TypeError
        | Some m =>
            if only_one_bin_possible m then Ok (LArr [b_lo b; b_hi b])
            else match max_nof_bins with
                 | O => Raise IndexError
                 | 1%nat => Ok (LArr [b_lo b; b_hi b])
                 | K => Ok (LArr (dp_limits m discount K))
                 end
        end
    end.

(** ** Fixed *)

(** bin_splitting.py:362-378  Fixed.find; bin_splitting.py:359-360  Fixed.__init__ (see make_binner). Note that a False set at line 366 does not stop the method. *)
Definition fixed_find (nof_bins : nat) (min_points : option nat) (cat_limit : nat) : res lims :=
  _ <- none_valid_binning min_points ;;                                                       (* 365-366 *)
  c <- is_categorical min_points cat_limit ;;
  match c with
  | Some l => Ok l
  | None =>
      let limits := linspace (b_lo b) (b_hi b) (nof_bins + 1) in
      match min_points with
      | Some _ => if all_bins (bin_valid min_points) limits then Ok (LArr limits) else Ok LFalse
      | None => Ok (LArr limits)
      end
  end.
End Base.

(** ** binning_methods.py *)

(** binning_methods.py:6-39  the three argument classes, or any string. *)
Inductive method :=
| MStr (s : string)
| MFixed (nof_bins : nat) (min_points : option nat) (cat_limit : nat)
| MGreedy (init_nof_bins : nat) (min_points : option nat) (discount : Qc) (cat_limit : nat)
| MDP (max_nof_bins : nat) (min_points : option nat) (discount : Qc) (cat_limit : nat).

(** default constructor arguments, binning_methods.py:7-11, 19-24, 32-36 *)
Definition Fixed_default := MFixed 100 (Some 10%nat) 15.
Definition Greedy_default := MGreedy 100 (Some 10%nat) (Q2Qc (3#10)) 15.
Definition DP_default := MDP 20 (Some 10%nat) (Q2Qc (3#10)) 15.

(** binning_methods.py:42-94  find_limits, on the object built by the be.* constructors; returns bin_est.limits. *)
Definition find_limits_b (b : binner) (mth : method) : res lims :=
  match mth with
  | MFixed n mp c => fixed_find b n mp c                                                      (* 72-74 *)
  | MGreedy n mp d c => greedy_find b n d mp c                                                (* 78-82 *)
  | MDP n mp d c => dp_find b n mp d c                                                        (* 86-90 *)
  | MStr s =>
      if String.eqb s "fixed" then fixed_find b 20 (Some 0%nat) 15                            (* 75-77 *)
      else if String.eqb s "greedy" then greedy_find b 100 (Q2Qc (3#10)) (Some 0%nat) 15      (* 83-85 *)
      else if String.eqb s "dp" then dp_find b 20 (Some 0%nat) (Q2Qc (3#10)) 15               (* 91-93 *)
      else Raise AssertionError                                                               (* 68-69 *)
  end.

Definition find_limits (X : data) (E : option Mat) (f : nat) (axis_limits : list Qc * list Qc) (mth : method) : res lims :=
  match mth with
  | MStr s => passert (String.eqb s "dp" || String.eqb s "greedy" || String.eqb s "fixed")%string ;;
              b <- make_binner X E f (Some axis_limits) ;; find_limits_b b mth
  | _ => b <- make_binner X E f (Some axis_limits) ;; find_limits_b b mth
  end.
