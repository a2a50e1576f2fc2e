(** Transformer: the column names of DataTransformer.transform (partitioning.py:580-667). *)
From Verif Require Import Base Numpy Spec Utils Helpers PartSpec Partition.
Open Scope Qc_scope.
Open Scope list_scope.

(** partitioning.py:628-658  the text added to new_name for the split [s] on side [b]; [fmt p] is ["{:.2f}".format(p)],
    any formatting. *)
Definition name_part (fmt : Qc -> string) (s : dsplit) (b : bool) : string :=
  String.append "x" (String.append (nat_to_string (d_feature s))
    (String.append (match b, d_type s with
                    | false, Cat => "=" | false, Cont => "<="
                    | true, Cat => "!=" | true, Cont => ">" end)
       (String.append (fmt (d_position s)) " & "))).
(** 614-663  the name of the copy [bin] of feature [f]: [new_name[:-3]] *)
Definition column_name (fmt : Qc -> string) (f : nat) (ss : list dsplit) (bin : list bool) : string :=
  let n := fold_left (fun n p => String.append n (name_part fmt (fst p) (snd p))) (combine ss bin)
             (String.append "x" (String.append (nat_to_string f) " | ")) in
  String.substring 0 (String.length n - 3) n.
(** 600-663  new_columns *)
Definition new_columns (fmt : Qc -> string) (sp : dsplits) (D : nat) : res (list string) :=
  let feat_mapping := map (fun e => 2 ^ length (snd e))%nat sp in
  cols <- mapM (fun f =>
            m <- getn feat_mapping f ;;
            if Nat.eqb m 1 then Ok [String.append "x" (nat_to_string f)]                      (* 605-607 *)
            else ss <- d_lookup sp f ;; Ok (map (column_name fmt f ss) (product01 (length ss))))
          (seq 0 D) ;;
  Ok (concat cols).
(** 584-667  transform with both results: the data and self.new_names. They come from the same loop; the exceptions of the
    names (a missing key, too few features) are raised by [transform] as well. *)
Definition transform_named (fmt : Qc -> string) (sp : dsplits) (X : data) : res (Mat * list string) :=
  M <- transform sp X ;; names <- new_columns fmt sp (dim X) ;; Ok (M, names).
