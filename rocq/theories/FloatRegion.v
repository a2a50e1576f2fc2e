(** FloatRegion: the search for subregions (effector/partitioning.py, class Regions) once more, in IEEE-754 binary64
    arithmetic. Partition.v models the same code with exact numbers; here heterogeneities, positions, weights and
    thresholds are float64 and a heterogeneity may be NaN.
    Modelled: search_all_splits, single_level_splits, choose_important_splits, split_dataset, find_positions_cat,
    find_positions_cont, flatten_list. Not modelled here: the "range", "candidate_split_positions" and "foc" entries of
    a split (see Partition.v) and the inference of the feature types (they are given). *)
From Coq Require Import Reals.
From Flocq Require Import Core.
From Flocq Require Import IEEE754.BinarySingleNaN.
From Verif Require Import Base Numpy Utils FloatModel.

(** An instance: its row of data and its row of data_effect (empty when data_effect is None). The code keeps the two
    arrays apart and cuts both with the masks computed on the data (partitioning.py:311-323), so paired rows stay
    paired; they are assumed to have the same number of rows. *)
Definition row64 := (list b64 * list b64)%type.
Definition feat64 (f : nat) (r : row64) : b64 := nth f (fst r) fnan.

(** partitioning.py:30-59  the attributes of Regions that the search reads. [g64_heter] is heter_func, any function
    that returns a float64 or raises; [g64_sum] is np.sum on a float64 vector. *)
Record regions64 := mkRegions64 {
  g64_heter : list row64 -> res b64; g64_sum : list b64 -> b64; g64_rows : list row64;
  g64_type : ftype; g64_foc : list nat; g64_foc_types : list ftype; g64_cat_limit : nat;
  g64_min_points : nat; g64_nof_splits : nat; g64_max_levels : nat;
  g64_thres : b64; g64_small : b64; g64_split_cat : bool }.

(** partitioning.py:310-325  split_dataset *)
Definition goes_left64 (t : ftype) (pos v : b64) : bool := match t with Cat => Beqb v pos | Cont => Bltb v pos end.
Definition goes_right64 (t : ftype) (pos v : b64) : bool := match t with Cat => negb (Beqb v pos) | Cont => Bleb pos v end.
Definition split_dataset64 (x : list row64) (f : nat) (pos : b64) (t : ftype) : list row64 * list row64 :=
  (filter (fun r => goes_left64 t pos (feat64 f r)) x, filter (fun r => goes_right64 t pos (feat64 f r)) x).
(** partitioning.py:124-133, 179-191, 231-247  every subregion is cut in two, flatten_list *)
Definition split_all64 (xs : list (list row64)) (f : nat) (pos : b64) (t : ftype) : list (list row64) :=
  flat_map (fun x => let '(a, b) := split_dataset64 x f pos t in [a; b]) xs.

(** partitioning.py:327-328  find_positions_cat: np.unique, which keeps one NaN, last *)
Definition find_positions_cat64 (c : list b64) : list b64 :=
  unique64 (filter (fun v => negb (is_nan v)) c) ++ (if existsb is_nan c then [fnan] else []).
(** partitioning.py:330-332  find_positions_cont *)
Definition find_positions_cont64 (c : list b64) (nof : nat) : res (list b64) :=
  hi <- np_max64 c ;; lo <- np_min64 c ;;
  let step := fdiv (fsub hi lo) (fofn nof) in
  Ok (map (fun i => fadd lo (fmul (fadd (fofn i) half64) step)) (seq 0 nof)).
(** partitioning.py:168-173 *)
Definition positions64 (g : regions64) (f : nat) (t : ftype) : res (list b64) :=
  let c := map (feat64 f) (g64_rows g) in
  match t with Cat => Ok (find_positions_cat64 c) | Cont => find_positions_cont64 c (g64_nof_splits g) end.

(** partitioning.py:211-214  populations, weights *)
Definition weights64 (populations : list nat) : list b64 :=
  map (fun n => fdiv (fofn (n + 1)) (fofn (sumn (map (fun m => m + 1)%nat populations)))) populations.
(** partitioning.py:202-220  the two cells of one candidate: weighted heterogeneity drop, weighted heterogeneity *)
Definition drops64 (before sub : list b64) : res (list b64) :=
  ds <- mapM (fun p => a <- getn sub (2 * fst p) ;; b <- getn sub (2 * fst p + 1) ;;
                       Ok [fsub (snd p) a; fsub (snd p) b]) (combine (seq 0 (length before)) before) ;;
  Ok (concat ds).
Definition score64 (nsum : list b64 -> b64) (before sub : list b64) (populations : list nat) : res (b64 * b64) :=
  d <- drops64 before sub ;;
  wd <- vzip fmul d (weights64 populations) ;;                                            (* 216 *)
  wh <- vzip fmul (weights64 populations) sub ;;                                          (* 218 *)
  Ok (nsum wd, nsum wh).
(** partitioning.py:177-218  one candidate: its subregions, their heterogeneities, its two cells *)
Definition evaluate64 (g : regions64) (xs : list (list row64)) (before : list b64) (f : nat) (pos : b64) (t : ftype)
  : res (list b64 * (b64 * b64)) :=
  let xs2 := split_all64 xs f pos t in
  sub <- mapM (g64_heter g) xs2 ;;
  c <- score64 (g64_sum g) before sub (map (@length row64) xs2) ;;
  Ok (sub, c).

(** partitioning.py:160-164  number of columns of the two tables *)
Definition width64 (g : regions64) : nat := Nat.max (g64_nof_splits g) (g64_cat_limit g).
(** partitioning.py:176-220  the filled cells, row by row; IndexError when a candidate has no column *)
Definition table64 (g : regions64) (xs : list (list row64)) (before : list b64) : res (list (list (b64 * (b64 * b64)))) :=
  mapM (fun ft => ps <- positions64 g (fst ft) (snd ft) ;;
                  mapM (fun jp => v <- evaluate64 g xs before (fst ft) (snd jp) (snd ft) ;;
                                  if Nat.ltb (fst jp) (width64 g) then Ok (snd jp, snd v) else Raise IndexError)
                       (combine (seq 0 (length ps)) ps))
       (combine (g64_foc g) (g64_foc_types g)).
(** partitioning.py:156-164  unfilled cells hold -BIG_M *)
Definition flat_drops64 (w : nat) (tbl : list (list (b64 * (b64 * b64)))) : list b64 :=
  flat_map (fun row => map (fun c => fst (snd c)) row ++ repeat (Bopp BIGM64) (w - length row)) tbl.

(** np.argmax (partitioning.py:221-223): numpy's loop — the first NaN if there is one, else the first maximum *)
Fixpoint argmax_from64 (best : b64) (bi i : nat) (l : list b64) : nat :=
  match l with
  | [] => bi
  | a :: l' => if Bleb a best then argmax_from64 best bi (S i) l'
               else if is_nan a then i else argmax_from64 a i (S i) l'
  end.
Definition argmax64 (l : list b64) : res nat :=
  match l with [] => Raise ValueError | a :: l' => Ok (if is_nan a then 0%nat else argmax_from64 a 0 1 l') end.

(** partitioning.py:253-266  the split dictionary *)
Record split64 := mkSplit64 { s64_feature : nat; s64_pos : b64; s64_type : ftype; s64_nof : list nat;
                              s64_heter : list b64; s64_drop : b64; s64_wheter : b64 }.

(** partitioning.py:141-267  single_level_splits *)
Definition single_level64 (g : regions64) (xs : list (list row64)) (before : list b64) : res split64 :=
  tbl <- table64 g xs before ;;
  k <- argmax64 (flat_drops64 (width64 g) tbl) ;;
  let i := (k / width64 g)%nat in let j := (k mod width64 g)%nat in
  f <- getn (g64_foc g) i ;; t <- getn (g64_foc_types g) i ;;
  row <- getn tbl i ;; c <- getn row j ;;
  let xs2 := split_all64 xs f (fst c) t in
  sub <- mapM (g64_heter g) xs2 ;;                                                        (* 239-251 *)
  Ok (mkSplit64 f (fst c) t (map (@length row64) xs2) sub (fst (snd c)) (snd (snd c))).

(** partitioning.py:109-135  the loop over the levels *)
Fixpoint search_levels64 (g : regions64) (n : nat) (xs : list (list row64)) (before : list b64) : res (list split64) :=
  match n with
  | O => Ok []
  | S n' =>
      if existsb (fun x => Nat.ltb (length x) (g64_min_points g)) xs then Ok []           (* 111-112 *)
      else s <- single_level64 g xs before ;;
           rest <- search_levels64 g n' (split_all64 xs (s64_feature s) (s64_pos s) (s64_type s)) (s64_heter s) ;;
           Ok (s :: rest)
  end.
(** partitioning.py:75-139  search_all_splits: None when self.splits stays empty *)
Definition search64 (g : regions64) : res (option (b64 * list split64)) :=
  match g64_type g, g64_split_cat g with
  | Cat, false => Ok None                                                                 (* 79-83 *)
  | _, _ =>
      passert (Nat.leb (g64_max_levels g) (length (g64_foc g))) ;;                        (* 85 *)
      h0 <- g64_heter g (g64_rows g) ;;
      ss <- search_levels64 g (g64_max_levels g) [g64_rows g] [h0] ;;
      Ok (match ss with [] => None | _ => Some (h0, ss) end)
  end.

(** partitioning.py:286-287  (heter[:-1] - heter[1:]) / heter[:-1] > thres *)
Definition valid64 (thres a b : b64) : bool := Bltb thres (fdiv (fsub a b) a).
(** partitioning.py:289-303  all when every split is valid, none when none is, else those before the first invalid one:
    in each case the longest valid prefix *)
Fixpoint valid_prefix64 (thres a : b64) (ss : list split64) : list split64 :=
  match ss with
  | [] => []
  | s :: ss' => if valid64 thres a (s64_wheter s) then s :: valid_prefix64 thres (s64_wheter s) ss' else []
  end.
(** partitioning.py:269-308  choose_important_splits after a search *)
Definition choose64 (g : regions64) (f : option (b64 * list split64)) : list split64 :=
  match f with
  | None => []
  | Some (h0, ss) =>
      if Beqb h0 BIGM64 then []                                                           (* 276 *)
      else if Bltb h0 (g64_small g) then []                                               (* 279 *)
      else valid_prefix64 (g64_thres g) h0 ss
  end.
(** partitioning.py:75-308  the splits reported: search_all_splits then choose_important_splits *)
Definition subregions64 (g : regions64) : res (list split64) := f <- search64 g ;; Ok (choose64 g f).
