(** Report: model of what show_partitioning and describe_subregions print (regional_effect.py:234-319,
    partitioning.py:558-578): the printed figures, not their formatting. Output that precedes an exception is not
    modelled. *)
From Verif Require Import Base Numpy Spec Utils Helpers Binning GlobalALE GlobalPDP GlobalShap Partition Regional.
Open Scope Qc_scope.
Open Scope list_scope.

(** ** The partition tree *)
(** One line of show_full_tree: the number of indentations, and the figures of the node. *)
Record printed := mkPr { pr_indent : nat; pr_idx : nat; pr_name : string; pr_heter : Qc; pr_nof : nat; pr_weight : Qc }.
Definition line_of (n : node) : printed := mkPr (n_level n * 2) (n_idx n) (n_name n) (n_heter n) (n_nof n) (n_weight n).
(** partitioning.py:558-566  show_full_tree(node); [limit] is the number of nested calls Python still allows. *)
Fixpoint show_below (limit : nat) (t : tree) (n : node) : res (list printed) :=
  match limit with
  | O => Raise RecursionError
  | S limit' => ls <- mapM (show_below limit' t) (get_children t (n_name n)) ;; Ok (line_of n :: concat ls)
  end.
Definition show_full_tree (limit : nat) (t : tree) : res (list printed) := r <- get_root t ;; show_below limit t r.

(** ** Level statistics *)
(** [max([node.level for node in self.nodes])]: ValueError for an empty list. *)
Definition max_level (t : tree) : res nat := match t with [] => Raise ValueError | _ => Ok (fold_right Nat.max 0%nat (map n_level t)) end.
(** One line of show_level_stats: the level, its heterogeneity and, below the root, the drop and the drop in percent
    ([None]: nan or inf). *)
Record level_line := mkLL { ll_level : nat; ll_heter : Qc; ll_drop : option (Qc * NQ) }.
(** A quotient of Python floats ([python] = true) raises ZeroDivisionError, of numpy floats gives nan or inf. The
    heterogeneity is a Python float for the ALE classes (z.item(), regional_effect_ale.py:81, 233) and a numpy float
    for the others (np.mean, regional_effect_pdp.py:62, regional_effect_shap.py:90). *)
Definition quotient (python : bool) (a b : Qc) : res NQ :=
  if b =? 0 then (if python then Raise ZeroDivisionError else Ok None) else Ok (Some (a / b)).
Definition python_floats (k : rkind) : bool := match k with RRHALE _ | RALE => true | _ => false end.
(** partitioning.py:568-577  show_level_stats: the levels [from .. ] after level [prev]. *)
Fixpoint stats_loop (python : bool) (t : tree) (prev : Qc) (levels : list nat) : res (list level_line) :=
  match levels with
  | [] => Ok []
  | lev :: levels' =>
      h <- get_level_stats t lev ;;
      d <- (match lev with
            | O => Ok None
            | S _ => q <- quotient python (Q2Qc 100 * (prev - h)) prev ;; Ok (Some (prev - h, q))
            end) ;;
      rest <- stats_loop python t h levels' ;;
      Ok (mkLL lev h d :: rest)
  end.
Definition show_level_stats (python : bool) (t : tree) : res (list level_line) :=
  m <- max_level t ;; stats_loop python t 0 (seq 0 (m + 1)).

(** ** show_partitioning *)
Section Report.
Variable x : externals.
Variable c : rconfig.
(** The recursion limit of Python. *)
Variable limit : nat.

(** partitioners["feature_f"].splits_to_tree(b, scale_x_list) *)
Definition scaled_tree (st : qstate) (f : nat) (b : bool) (scale : list (Qc * Qc)) : res (option tree) :=
  match qs_part st f with None => Raise KeyError | Some p => tree_of x p b (Some scale) end.
(** regional_effect.py:240-245  the tree that is shown. The local variables are named the wrong way round:
    tree_full_scaled is built with only_important=True and tree_pruned_scaled with False. *)
Definition shown_tree (st : qstate) (f : nat) (only_important : bool) (scale : option (list (Qc * Qc))) : res (option tree) :=
  match scale with
  | Some l =>
      tree_full_scaled <- scaled_tree st f true l ;;
      tree_pruned_scaled <- scaled_tree st f false l ;;
      Ok (if only_important then tree_full_scaled else tree_pruned_scaled)
  | None =>
      match (if only_important then qs_pruned st f else qs_full st f) with None => Raise KeyError | Some t => Ok t end
  end.
(** regional_effect.py:247-262  None: "No splits found for feature f" (printed twice). *)
Definition partitioning_report := option (list printed * list level_line).
Definition report_tree (t : option tree) : res partitioning_report :=
  match t with
  | None => Ok None
  | Some t => a <- show_full_tree limit t ;; b <- show_level_stats (python_floats (q_kind c)) t ;; Ok (Some (a, b))
  end.
(** A loop over features that refits each one and then prints a report. *)
Fixpoint report_loop {A} (report : qstate -> nat -> res A) (st : qstate) (fs : list nat) : qstate * res (list A) :=
  match fs with
  | [] => (st, Ok [])
  | f :: fs' =>
      match rrefit x c st f with
      | (st1, Raise e) => (st1, Raise e)
      | (st1, Ok _) =>
          match report st1 f with
          | Raise e => (st1, Raise e)
          | Ok a => let '(st2, r) := report_loop report st1 fs' in (st2, rmap (cons a) r)
          end
      end
  end.
(** regional_effect.py:234-262  show_partitioning; [fs] is the feature list after prep_features. *)
Definition show_partitioning (st : qstate) (fs : list nat) (only_important : bool) (scale : option (list (Qc * Qc)))
  : qstate * res (list partitioning_report) :=
  report_loop (fun st f => t <- shown_tree st f only_important scale ;; report_tree t) st fs.

(** ** describe_subregions *)
(** What is printed about one level. *)
Record split_report := mkSR {
  sr_name : string; sr_type : ftype; sr_position : Qc;
  sr_before : Qc; sr_after : Qc; sr_drop : Qc; sr_percent : NQ; sr_nof_before : list nat; sr_nof_after : list nat }.
Definition weighted_sum (l : list node) : Qc := sumq (map (fun n => n_weight n * n_heter n) l).
(** regional_effect.py:291-319  one iteration. np.sum gives numpy floats: a zero heterogeneity before the split makes
    the percentage nan or inf. *)
Definition describe_level (t : tree) (scale : option (list (Qc * Qc))) (level : nat) : res split_report :=
  let previous := get_level_nodes t (level - 1) in
  let current := get_level_nodes t level in
  first <- getn current 0 ;;
  '(foc, ty, pos, _) <- match n_split first with Some s => Ok s | None => Raise KeyError end ;;
  name <- getn (q_names c) foc ;;
  position <- match scale with
              | None => Ok pos
              | Some l => ms <- getn l foc ;; Ok (pos * snd ms + fst ms)                     (* (mean, std) *)
              end ;;
  let before := weighted_sum previous in
  let after := weighted_sum current in
  percent <- quotient false (before - after) before ;;
  Ok (mkSR name ty position before after (before - after) (option_map (fun q => q * Q2Qc 100) percent)
           (map n_nof previous) (map n_nof current)).
(** What is printed about one feature: nothing, "No important splits found", or one report per level. *)
Inductive description := Skipped | NoImportantSplits | Levels (l : list split_report).
(** regional_effect.py:271-290 *)
Definition describe_feature (only_important : bool) (scale : option (list (Qc * Qc))) (st : qstate) (f : nat) : res description :=
  full <- match qs_full st f with None => Raise KeyError | Some t => Ok t end ;;
  match full with
  | None => Ok Skipped                                                                      (* 276-277 *)
  | Some full =>
      _ <- getn (q_names c) f ;;
      chosen <- (if only_important then
                   match qs_pruned st f with
                   | None => Raise KeyError
                   | Some None => Raise AttributeError                                      (* None.nodes *)
                   | Some (Some t) => Ok (if Nat.eqb (length t) 1 then None else Some t)
                   end
                 else Ok (Some full)) ;;
      match chosen with
      | None => Ok NoImportantSplits
      | Some t => m <- max_level t ;; rmap Levels (mapM (describe_level t scale) (seq 1 m))
      end
  end.
(** regional_effect.py:264-319  describe_subregions *)
Definition describe_subregions (st : qstate) (fs : list nat) (only_important : bool) (scale : option (list (Qc * Qc)))
  : qstate * res (list description) :=
  report_loop (describe_feature only_important scale) st fs.

(** Histories of calls that include the two reports. *)
Inductive xcall :=
| XCall (k : qcall)
| XShow (fs : list nat) (only_important : bool) (scale : option (list (Qc * Qc)))
| XDescribe (fs : list nat) (only_important : bool) (scale : option (list (Qc * Qc))).
Definition xstep (st : qstate) (k : xcall) : qstate :=
  match k with
  | XCall k => qstep x c st k
  | XShow fs b sc => fst (show_partitioning st fs b sc)
  | XDescribe fs b sc => fst (describe_subregions st fs b sc)
  end.
Definition xrun (st : qstate) (ks : list xcall) : qstate := fold_left xstep ks st.
End Report.
