(** Partition: model of effector/partitioning.py (classes Regions, Node, Tree, DataTransformer). *)
From Verif Require Import Base Numpy Utils.
Open Scope Qc_scope.
Open Scope list_scope.

(** A heterogeneity function [heter_func(data)] / [heter_func(data, data_effect)] (partitioning.py:91-93,
    195-199). It may raise. Simplification: a NaN result is not represented (the functions of
    regional_effect_*.py return BIG_M or a finite number on finite models). *)
Definition heter_func := Mat -> option Mat -> res Qc.

(** candidate_conditioning_features: the string "all" or a list (partitioning.py:47-51).
    Simplification: feature indices are natural numbers. *)
Inductive conditioning := AllFeatures | Features (l : list nat).

(** partitioning.py:30-59  the attributes set by Regions.__init__ that the other methods read.
    [g_types] and [g_foc_types] are [self.feature_types] and [self.foc_types]. *)
Record regions := mkRegions {
  g_feature : nat; g_heter : heter_func; g_data : data; g_effect : option Mat;
  g_types : list ftype; g_names : list string; g_cat_limit : nat;
  g_foc : list nat; g_foc_types : list ftype;
  g_min_points : nat; g_nof_splits : nat; g_max_levels : nat;
  g_drop_thres : Qc; g_small_enough : Qc; g_split_cat : bool }.

(** partitioning.py:12-73  Regions.__init__. Line 59 raises IndexError for a feature without a type. *)
Definition regions_init (feature : nat) (heter : heter_func) (X : data) (effect : option Mat)
    (feature_types : option (list ftype)) (feature_names : list string) (cat_limit : nat)
    (candidates : conditioning) (min_points nof_splits max_levels : nat) (drop_thres small_enough : Qc)
    (split_cat : bool) : res regions :=
  let foc := match candidates with
             | AllFeatures => filter (fun i => negb (Nat.eqb i feature)) (seq 0 (dim X))   (* 48 *)
             | Features l => l
             end in
  let types := match feature_types with None => get_feature_types X cat_limit | Some t => t end in
  foc_types <- mapM (getn types) foc ;;                                                    (* 59 *)
  Ok (mkRegions feature heter X effect types feature_names cat_limit foc foc_types min_points nof_splits
                max_levels drop_thres small_enough split_cat).

(** ** Splitting *)

(** [x[mask, :]] with a boolean mask: IndexError when the lengths differ (partitioning.py:319-323). *)
Definition mask_rows (m : list bool) (x : Mat) : res Mat :=
  if Nat.eqb (length m) (length x) then Ok (map snd (filter fst (combine m x))) else Raise IndexError.

(** partitioning.py:310-325  split_dataset. The column index is not checked again here: every caller has
    already read that column of the dataset when it computed the candidate positions. *)
Definition split_dataset (x : Mat) (x_jac : option Mat) (f : nat) (position : Qc) (t : ftype)
  : res (Mat * Mat) :=
  let ind_1 := map (fun v => match t with Cat => v =? position | Cont => v <? position end) (col x f) in
  let ind_2 := map (fun v => match t with Cat => negb (v =? position) | Cont => position <=? v end) (col x f) in
  let y := match x_jac with None => x | Some j => j end in
  x1 <- mask_rows ind_1 y ;;
  x2 <- mask_rows ind_2 y ;;
  Ok (x1, x2).

(** partitioning.py:327-328  find_positions_cat *)
Definition find_positions_cat (X : data) (f : nat) : res (list Qc) := c <- getcol X f ;; Ok (unique c).
(** partitioning.py:330-332  find_positions_cont. For nof_splits = 0 the division by zero only makes numpy
    warn and the result is the empty array. *)
Definition find_positions_cont (X : data) (f : nat) (nof_splits : nat) : res (list Qc) :=
  c <- getcol X f ;;
  hi <- np_max c ;; lo <- np_min c ;;
  let step := (hi - lo) / qn nof_splits in
  Ok (map (fun i => lo + (qn i + Q2Qc (1#2)) * step) (seq 0 nof_splits)).

(** partitioning.py:334-335  flatten_list, on a list of pairs. *)
Definition flatten_list {A} (l : list (A * A)) : list A := flat_map (fun p => [fst p; snd p]) l.
Definition enum {A} (l : list A) : list (nat * A) := combine (seq 0 (length l)) l.

(** partitioning.py:179-184, 231-236, 131-133 *)
Definition split_all (xs : list Mat) (f : nat) (pos : Qc) (t : ftype) : res (list Mat) :=
  ps <- mapM (fun x => split_dataset x None f pos t) xs ;; Ok (flatten_list ps).
(** partitioning.py:186-191, 242-247, 124-129 ([zip] stops at the shorter list) *)
Definition split_all_jac (xs js : list Mat) (f : nat) (pos : Qc) (t : ftype) : res (list Mat) :=
  ps <- mapM (fun p => split_dataset (fst p) (Some (snd p)) f pos t) (combine xs js) ;; Ok (flatten_list ps).
Definition split_effects (xs : list Mat) (ojs : option (list Mat)) (f : nat) (pos : Qc) (t : ftype)
  : res (option (list Mat)) :=
  match ojs with None => Ok None | Some js => r <- split_all_jac xs js f pos t ;; Ok (Some r) end.
(** partitioning.py:194-199, 239-251 *)
Definition sub_heters (h : heter_func) (xs : list Mat) (ojs : option (list Mat)) : res (list Qc) :=
  match ojs with
  | None => mapM (fun x => h x None) xs
  | Some js => mapM (fun p => h (fst p) (Some (snd p))) (combine xs js)
  end.

(** partitioning.py:202-220  the two table entries of one candidate split: the weighted drop and the
    weighted heterogeneity. *)
Definition weights (populations : list nat) : list Qc :=
  map (fun n => qn (n + 1) / qn (sumn (map (fun m => m + 1)%nat populations))) populations.
Definition score (heter_before sub : list Qc) (populations : list nat) : res (Qc * Qc) :=
  drops <- mapM (fun p => a <- getn sub (2 * fst p) ;; b <- getn sub (2 * fst p + 1) ;;
                          Ok (snd p - a, snd p - b)) (enum heter_before) ;;            (* 204-209 *)
  wd <- vzip Qcmult (flatten_list drops) (weights populations) ;;                       (* 218 *)
  wh <- vzip Qcmult (weights populations) sub ;;                                        (* 220 *)
  Ok (sumq wd, sumq wh).
(** partitioning.py:178-220  one iteration of the exhaustive search. *)
Definition evaluate_split (h : heter_func) (xs : list Mat) (ojs : option (list Mat)) (before : list Qc)
    (f : nat) (pos : Qc) (t : ftype) : res (Qc * Qc) :=
  xs2 <- split_all xs f pos t ;;
  js2 <- split_effects xs ojs f pos t ;;
  sub <- sub_heters h xs2 js2 ;;
  score before sub (map (@length _) xs2).

(** [np.argmax] of a flat array: the first position of the maximum, ValueError when empty (223-224). *)
Fixpoint argmax_from (best : Qc) (bi i : nat) (l : list Qc) : nat :=
  match l with
  | [] => bi
  | a :: l' => if best <? a then argmax_from a i (S i) l' else argmax_from best bi (S i) l'
  end.
Definition argmax (l : list Qc) : res nat :=
  match l with [] => Raise ValueError | a :: l' => Ok (argmax_from a 0 1 l') end.

(** The split dictionary (partitioning.py:253-266). *)
Record split := mkSplit {
  s_feature : nat; s_position : Qc; s_range : Qc * Qc; s_candidates : list Qc; s_nof : list nat;
  s_type : ftype; s_heter : list Qc; s_i : nat; s_j : nat; s_drop : Qc; s_wheter : Qc }.

(** partitioning.py:168-173 *)
Definition positions (g : regions) : res (list (list Qc)) :=
  mapM (fun p => match snd p with
                 | Cat => find_positions_cat (g_data g) (fst p)
                 | Cont => find_positions_cont (g_data g) (fst p) (g_nof_splits g)
                 end) (combine (g_foc g) (g_foc_types g)).
(** partitioning.py:160, 164  number of columns of the tables *)
Definition width (g : regions) : nat := Nat.max (g_nof_splits g) (g_cat_limit g).
(** partitioning.py:176-220  the filled part of the tables, row by row: writing at a column outside the
    table raises IndexError, after the heterogeneities of that candidate have been computed. *)
Definition table_row (g : regions) (xs : list Mat) (ojs : option (list Mat)) (before : list Qc)
    (f : nat) (t : ftype) (cands : list Qc) : res (list (Qc * Qc)) :=
  mapM (fun jp => v <- evaluate_split (g_heter g) xs ojs before f (snd jp) t ;;
                  if Nat.ltb (fst jp) (width g) then Ok v else Raise IndexError) (enum cands).
Definition table (g : regions) (xs : list Mat) (ojs : option (list Mat)) (before : list Qc)
    (cands : list (list Qc)) : res (list (list (Qc * Qc))) :=
  mapM (fun q => table_row g xs ojs before (fst (fst q)) (snd (fst q)) (snd q))
       (combine (combine (g_foc g) (g_foc_types g)) cands).
(** The array weighted_heter_drop, flattened: unfilled cells hold -BIG_M (156-160). *)
Definition flat_drops (w : nat) (tbl : list (list (Qc * Qc))) : list Qc :=
  flat_map (fun row => map fst row ++ repeat (- BIG_M) (w - length row)) tbl.

(** partitioning.py:141-267  single_level_splits *)
Definition single_level_splits (g : regions) (xs : list Mat) (ojs : option (list Mat)) (before : list Qc)
  : res split :=
  cands <- positions g ;;
  tbl <- table g xs ojs before cands ;;
  k <- argmax (flat_drops (width g) tbl) ;;
  let i := (k / width g)%nat in let j := (k mod width g)%nat in                          (* 223-225 *)
  feature <- getn (g_foc g) i ;;
  ci <- getn cands i ;;
  position <- getn ci j ;;
  t <- getn (g_foc_types g) i ;;
  xs2 <- split_all xs feature position t ;;
  js2 <- split_effects xs ojs feature position t ;;
  sub <- sub_heters (g_heter g) xs2 js2 ;;
  c <- getcol (g_data g) feature ;;
  lo <- np_min c ;; hi <- np_max c ;;                                                    (* 256 *)
  row <- getn tbl i ;; cell <- getn row j ;;
  Ok (mkSplit feature position (lo, hi) ci (map (@length _) xs2) t sub i j (fst cell) (snd cell)).

(** partitioning.py:98-108  the root entry of the list of splits *)
Record root := mkRoot { r_heter : Qc; r_nof : nat }.
(** [self.splits]: None when empty ({} or []), else the root entry and the splits found. *)
Definition found := option (root * list split).

(** partitioning.py:109-135  the loop over the levels; [n] levels remain. *)
Fixpoint search_levels (g : regions) (n : nat) (xs : list Mat) (ojs : option (list Mat)) (before : list Qc)
    (acc : list split) : res (list split) :=
  match n with
  | O => Ok acc
  | S n' =>
      if existsb (fun x => Nat.ltb (length x) (g_min_points g)) xs then Ok acc          (* 111-112 *)
      else
        s <- single_level_splits g xs ojs before ;;
        js2 <- split_effects xs ojs (s_feature s) (s_position s) (s_type s) ;;
        xs2 <- split_all xs (s_feature s) (s_position s) (s_type s) ;;
        search_levels g n' xs2 js2 (s_heter s) (acc ++ [s])
  end.

(** partitioning.py:75-139  search_all_splits. [self.splits] is assigned inside the loop (line 135), so it
    stays empty when no iteration completes. *)
Definition search_all_splits (g : regions) : res found :=
  t <- getn (g_types g) (g_feature g) ;;
  match t, g_split_cat g with
  | Cat, false => Ok None                                                               (* 79-83 *)
  | _, _ =>
      passert (Nat.leb (g_max_levels g) (length (g_foc g))) ;;                          (* 85 *)
      h0 <- g_heter g (rows (g_data g)) (g_effect g) ;;
      ss <- search_levels g (g_max_levels g) [rows (g_data g)] (option_map (fun e => [e]) (g_effect g)) [h0] [] ;;
      match ss with
      | [] => Ok None
      | _ => Ok (Some (mkRoot h0 (length (rows (g_data g))), ss))
      end
  end.

(** partitioning.py:286-287  [(a - b) / a > thres] with numpy's division: x/0 is nan or an infinity. *)
Definition drop_exceeds (a b thres : Qc) : bool :=
  if a =? 0 then b <? 0 else thres <? (a - b) / a.
(** partitioning.py:269-308  choose_important_splits, on the result of a completed search (the assertion on
    line 270 is [choose] of [rstate] below). *)
Definition choose_important_splits (g : regions) (f : found) : list split :=
  match f with
  | None => []                                                                          (* 273 *)
  | Some (r, ss) =>
      if r_heter r =? BIG_M then []                                                     (* 276 *)
      else if r_heter r <? g_small_enough g then []                                     (* 279 *)
      else
        let heter := r_heter r :: map s_wheter ss in
        let valid := map (fun p => drop_exceeds (fst p) (snd p) (g_drop_thres g)) (combine (init_ heter) (tl heter)) in
        if Nat.eqb (count (fun b => b) valid) 0 then []                                 (* 290 *)
        else if Nat.eqb (count (fun b => b) valid) (length valid) then ss               (* 293 *)
        else
          let first_negative := hd 0%nat (map fst (filter (fun p => negb (snd p)) (enum valid))) in (* 297 *)
          if Nat.eqb first_negative 0 then [] else firstn first_negative ss             (* 300-303 *)
  end.

(** ** Tree *)

(** partitioning.py:443-459  Node.__init__, and partitioning.py:415-426, 344-351: the data stored in a node. A Tree
    (partitioning.py:480-482  Tree.__init__) is the list of its nodes. [n_split] holds the entries present only
    below the root: feature, feature_type, position, comparison. [n_parent] is the index of the parent
    node object. *)
Inductive comparison := CmpEq | CmpNe | CmpLe | CmpGt.
Record node := mkNode {
  n_idx : nat; n_name : string; n_parent : option nat; n_level : nat;
  n_heter : Qc; n_weight : Qc; n_nof : nat; n_data : Mat; n_effect : option Mat;
  n_split : option (nat * ftype * Qc * comparison) }.
Definition tree := list node.

(** partitioning.py:516-522  get_node: the first node with that name *)
Definition get_node (t : tree) (name : string) : option node := find (fun n => String.eqb (n_name n) name) t.
(** partitioning.py:504-514  add_node. [self.idx] is the number of nodes added so far. *)
Definition add_node (t : tree) (name : string) (parent_name : option string) (level : nat)
    (heter weight : Qc) (nof : nat) (X : Mat) (effect : option Mat) (sp : option (nat * ftype * Qc * comparison))
  : res tree :=
  parent <- match parent_name with
            | None => Ok None
            | Some p => match get_node t p with Some n => Ok (Some (n_idx n)) | None => Raise AssertionError end
            end ;;
  Ok (t ++ [mkNode (length t) name parent level heter weight nof X effect sp]).
(** partitioning.py:524-529  get_level_nodes *)
Definition get_level_nodes (t : tree) (level : nat) : list node := filter (fun n => Nat.eqb (n_level n) level) t.
(** partitioning.py:531-538  get_root *)
Definition get_root (t : tree) : res node :=
  match find (fun n => match n_parent n with None => true | Some _ => false end) t with
  | Some n => Ok n | None => Raise AssertionError end.
(** partitioning.py:540-546  get_children: the nodes whose parent object has that name *)
Definition get_children (t : tree) (name : string) : list node :=
  filter (fun n => match n_parent n with
                   | None => false
                   | Some p => match nth_error t p with Some pn => String.eqb (n_name pn) name | None => false end
                   end) t.
(** partitioning.py:548-556  get_level_stats (the "heterogeneity" entry) *)
Definition get_level_stats (t : tree) (level : nat) : res Qc :=
  _ <- get_root t ;;
  Ok (sumq (map (fun n => n_heter n * n_weight n) (get_level_nodes t level))).

(** partitioning.py:397-412  the label of a node. [fmt p] is ["{}".format(pos.round(2))], any formatting. *)
Definition label (foc_name : string) (t : ftype) (even : bool) (pos : string) : string :=
  String.append foc_name
    (String.append (match t, even with
                    | Cat, true => " == " | Cont, true => " <= "
                    | Cat, false => " != " | Cont, false => "  > " end) pos).
Definition compare (t : ftype) (even : bool) : comparison :=
  match t, even with Cat, true => CmpEq | Cont, true => CmpLe | Cat, false => CmpNe | Cont, false => CmpGt end.

(** The formatted position: scaled first when scale_x_list is given (377-387); scale_x_list[foc] raises
    IndexError when absent. *)
Definition scaled_position (scale : option (list (Qc * Qc))) (foc : nat) (pos : Qc) : res Qc :=
  match scale with
  | None => Ok pos
  | Some l => ms <- getn l foc ;; Ok (snd ms * pos + fst ms)          (* (mean, std) *)
  end.

(** partitioning.py:370-432  the loop over the nodes of one level. State: the tree and the names, data and
    effects of the nodes added at this level. *)
Definition level_state := (tree * list string * list Mat * list (option Mat))%type.
Definition add_level_node (g : regions) (fmt : Qc -> string) (scale : option (list (Qc * Qc))) (N : nat)
    (i : nat) (s : split) (pn : list string) (pd : list Mat) (pe : list (option Mat))
    (j : nat) (st : level_state) : res level_state :=
  let '(t, nn, nd, ne) := st in
  parent_name <- getn pn (j / 2) ;;
  parent_data <- getn pd (j / 2) ;;
  parent_effect <- getn pe (j / 2) ;;
  foc_name <- getn (g_names g) (s_feature s) ;;
  ps <- scaled_position scale (s_feature s) (s_position s) ;;
  d <- split_dataset parent_data None (s_feature s) (s_position s) (s_type s) ;;         (* 389 *)
  e <- match g_effect g with                                                             (* 390-393 *)
       | Some _ => r <- split_dataset parent_data parent_effect (s_feature s) (s_position s) (s_type s) ;;
                   Ok (Some (fst r), Some (snd r))
       | None => Ok (None, None)
       end ;;
  let even := Nat.even j in
  let data_new := if even then fst d else snd d in
  let effect_new := if even then fst e else snd e in
  let name := label foc_name (s_type s) even (fmt ps) in
  let name := String.append parent_name
                (String.append (if Nat.eqb (length (s_nof s)) 2 then " | " else " and ") name) in (* 412 *)
  h <- getn (s_heter s) j ;;
  n <- getn (s_nof s) j ;;
  t' <- add_node t name (Some parent_name) (i + 1) h (qn (length data_new) / qn N) n data_new effect_new
          (Some (s_feature s, s_type s, s_position s, compare (s_type s) even)) ;;
  Ok (t', nn ++ [name], nd ++ [data_new], ne ++ [effect_new]).

Fixpoint foldM {A S} (f : A -> S -> res S) (l : list A) (st : S) : res S :=
  match l with [] => Ok st | a :: l' => st' <- f a st ;; foldM f l' st' end.

(** partitioning.py:360-437  the loop over the levels. Line 437 assigns the *data* of the new level, not its
    effects, to parent_level_data_effect. *)
Fixpoint add_levels (g : regions) (fmt : Qc -> string) (scale : option (list (Qc * Qc))) (N : nat)
    (i : nat) (ss : list split) (t : tree) (pn : list string) (pd : list Mat) (pe : list (option Mat))
  : res tree :=
  match ss with
  | [] => Ok t
  | s :: ss' =>
      st <- foldM (add_level_node g fmt scale N i s pn pd pe) (seq 0 (length (s_nof s))) (t, [], [], []) ;;
      let '(t', nn, nd, ne) := st in
      add_levels g fmt scale N (S i) ss' t' nn nd (map Some nd)
  end.

(** partitioning.py:337-439  splits_to_tree. [important] is [self.important_splits] (the result of
    choose_important_splits, or [] before it was called). *)
Definition splits_to_tree (g : regions) (fmt : Qc -> string) (f : found) (important : list split)
    (only_important : bool) (scale : option (list (Qc * Qc))) : res (option tree) :=
  match f with
  | None => Ok None                                                                      (* 338-339 *)
  | Some (r, ss) =>
      name <- getn (g_names g) (g_feature g) ;;
      t <- add_node [] name None 0 (r_heter r) 1 (r_nof r) (rows (g_data g)) (g_effect g) None ;;
      t' <- add_levels g fmt scale (r_nof r) 0 (if only_important then important else ss) t
              [name] [rows (g_data g)] [g_effect g] ;;
      Ok (Some t')
  end.

(** ** The Regions object as a state machine: (splits, important_splits, split_found) (65-73). *)
Record rstate := mkRState { t_splits : found; t_important : list split; t_found : bool }.
Definition rfresh : rstate := mkRState None [] false.
Inductive rcall := RSearch | RChoose | RTree (only_important : bool) (scale : option (list (Qc * Qc))).
Inductive rret := RFound (f : found) | RImportant (l : list split) | RTreeIs (t : option tree).
(** A search that finds nothing leaves [self.splits] untouched (line 135), except that the categorical
    branch assigns [] (line 83). Simplification: a search that raises leaves the object unchanged. *)
Definition rstep (g : regions) (fmt : Qc -> string) (st : rstate) (c : rcall) : rstate * res rret :=
  match c with
  | RSearch =>
      match search_all_splits g with
      | Raise e => (st, Raise e)
      | Ok f =>
          let cat := match getn (g_types g) (g_feature g) with Ok Cat => negb (g_split_cat g) | _ => false end in
          let s' := match f with None => if cat then None else t_splits st | Some _ => f end in
          (mkRState s' (t_important st) true, Ok (RFound s'))
      end
  | RChoose =>
      if t_found st then
        let l := choose_important_splits g (t_splits st) in
        (mkRState (t_splits st) l true, Ok (RImportant l))
      else (st, Raise AssertionError)                                                    (* 270 *)
  | RTree b scale =>
      (st, t <- splits_to_tree g fmt (t_splits st) (t_important st) b scale ;; Ok (RTreeIs t))
  end.
Fixpoint rrun (g : regions) (fmt : Qc -> string) (st : rstate) (cs : list rcall) : rstate :=
  match cs with [] => st | c :: cs' => rrun g fmt (fst (rstep g fmt st c)) cs' end.

(** ** DataTransformer (partitioning.py:580-667; partitioning.py:581-582 __init__ only stores [splits]) *)
(** One entry of the splits dictionary: the type, the conditioning feature and the position of each split
    of a feature, under its key. Keys "feat_<i>" are modelled by [i]; dict.values() is in insertion order. *)
Record dsplit := mkD { d_type : ftype; d_feature : nat; d_position : Qc }.
Definition dsplits := list (nat * list dsplit).
(** itertools.product([0, 1], repeat=n) (611-613); 0 is [false] *)
Fixpoint product01 (n : nat) : list (list bool) :=
  match n with
  | O => [[]]
  | S n' => flat_map (fun b => map (cons b) (product01 n')) [false; true]
  end.
(** 617-660: is the row inside the region numbered [bin]? *)
Definition d_side (s : dsplit) (b : bool) (r : list Qc) : bool :=
  let v := nth (d_feature s) r 0 in
  match b, d_type s with
  | false, Cat => v =? d_position s
  | false, Cont => v <=? d_position s
  | true, Cat => negb (v =? d_position s)
  | true, Cont => d_position s <? v
  end.
Definition d_mask (ss : list dsplit) (bin : list bool) (r : list Qc) : bool :=
  forallb (fun p => d_side (fst p) (snd p) r) (combine ss bin).
Definition d_lookup (sp : dsplits) (f : nat) : res (list dsplit) :=
  match find (fun p => Nat.eqb (fst p) f) sp with Some p => Ok (snd p) | None => Raise KeyError end.
(** 610-663: the masks of one feature, written at columns [at], [at]+1, ... of the mask of this row. Reading a
    column that X does not have, or writing outside the mask, raises IndexError. *)
Fixpoint write_masks (D : nat) (r : list Qc) (ss : list dsplit) (bins : list (list bool)) (at_ : nat) (mask : list bool)
  : res (list bool) :=
  match bins with
  | [] => Ok mask
  | b :: bins' =>
      if existsb (fun s => Nat.leb D (d_feature s)) ss then Raise IndexError
      else if Nat.ltb at_ (length mask)
      then write_masks D r ss bins' (S at_) (firstn at_ mask ++ d_mask ss b r :: skipn (S at_) mask)
      else Raise IndexError
  end.
(** 584-667 transform (the data; the column names are in Transformer.v). Every row is transformed separately: the new
    columns of feature [f] are feat_mapping[f] copies of its value, multiplied by the 0/1 mask, which starts as
    all ones. feat_mapping takes the *values* of the dictionary in insertion order (587-591) while the masks
    look the key "feat_f" up (610). Simplification: for a dataset without rows the exceptions are not modelled. *)
Definition transform_row (sp : dsplits) (D : nat) (r : list Qc) : res (list Qc) :=
  let feat_mapping := map (fun e => 2 ^ length (snd e))%nat sp in
  cols <- mapM (fun f => m <- getn feat_mapping f ;; Ok (repeat (nth f r 0) m)) (seq 0 D) ;;   (* 594-597 *)
  let new_data := concat cols in
  mask <- foldM (fun (f : nat) (mask : list bool) =>
            m <- getn feat_mapping f ;;
            if Nat.eqb m 1 then Ok mask                                                        (* 606-608 *)
            else ss <- d_lookup sp f ;;
                 write_masks D r ss (product01 (length ss)) (sumn (firstn f feat_mapping)) mask)
          (seq 0 D) (repeat true (length new_data)) ;;
  Ok (map (fun p : Qc * bool => fst p * (if snd p then 1 else 0)) (combine new_data mask)).                 (* 665 *)
Definition transform (sp : dsplits) (X : data) : res Mat := mapM (transform_row sp (dim X)) (rows X).
