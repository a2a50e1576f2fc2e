(** Rename: model of Tree.rename_nodes and Tree._rename_node (partitioning.py:484-502). *)
From Verif Require Import Base Numpy Utils Helpers Partition.
From Coq Require Import Ascii DecimalString DecimalNat.
Open Scope Qc_scope.
Open Scope list_scope.

(** Strings are handled as lists of characters. *)
Definition text := list ascii.
Definition text_of (s : string) : text := list_ascii_of_string s.
(** [\d] (ASCII digits; Python also accepts other Unicode digits) and [[\d\.]] *)
Definition is_digit (c : ascii) : bool := (Nat.leb 48 (nat_of_ascii c) && Nat.leb (nat_of_ascii c) 57)%bool.
Definition is_num (c : ascii) : bool := (is_digit c || Ascii.eqb c ".")%bool.
Fixpoint span (p : ascii -> bool) (s : text) : text * text :=
  match s with
  | [] => ([], [])
  | c :: s' => if p c then let '(a, b) := span p s' in (c :: a, b) else ([], s)
  end.
Fixpoint strip (pre s : text) : option text :=
  match pre, s with
  | [], _ => Some s
  | a :: pre', c :: s' => if Ascii.eqb a c then strip pre' s' else None
  | _, [] => None
  end.
(** partitioning.py:491  the regular expression (x_\d+) (==|!=|<=|<|>=|>) ([\d\.]+) at the beginning of [s]: the digits of
    the first group, the third group and what follows. The repetitions are greedy; giving digits back cannot help, since a
    blank (or the end) follows them. The alternatives are tried from left to right. *)
Definition ops : list text := map text_of ["=="; "!="; "<="; "<"; ">="; ">"]%string.
Fixpoint match_op (alts : list text) (s : text) : option (text * text) :=
  match alts with
  | [] => None
  | o :: alts' =>
      match strip (o ++ [" "%char]) s with
      | Some r => match span is_num r with
                  | ([], _) => match_op alts' s
                  | (num, rest) => Some (num, rest)
                  end
      | None => match_op alts' s
      end
  end.
Definition match_here (s : text) : option (text * text * text) :=
  match strip (text_of "x_") s with
  | None => None
  | Some r =>
      match span is_digit r with
      | ([], _) => None
      | (ds, " "%char :: r') => match match_op ops r' with Some (num, rest) => Some (ds, num, rest) | None => None end
      | _ => None
      end
  end.
(** partitioning.py:492  re.finditer: the successive non-overlapping matches, from left to right, of the name as it was before
    the loop; [fuel] is the length of the text. *)
Fixpoint finditer (fuel : nat) (s : text) : list (text * text) :=
  match fuel, s with
  | S n, c :: s' => match match_here s with
                    | Some (ds, num, rest) => (ds, num) :: finditer n rest
                    | None => finditer n s'
                    end
  | _, _ => []
  end.
(** [int(s)] of a string of digits; [float(s)] of digits and dots: ValueError unless there is a digit and at most one dot. *)
Definition int_of (s : text) : nat :=
  match NilEmpty.uint_of_string (string_of_list_ascii s) with Some d => Nat.of_uint d | None => 0%nat end.
Definition float_of (s : text) : res Qc :=
  match span is_digit s with
  | (ip, []) => Ok (qn (int_of ip))
  | (ip, _ :: fp) =>
      if (forallb is_digit fp && negb (Nat.eqb (length ip + length fp) 0))%bool
      then Ok (qn (int_of ip) + qn (int_of fp) / qn (10 ^ length fp)) else Raise ValueError
  end.
(** [s.replace(old, new)] for a non-empty [old]: every occurrence, from left to right; [fuel] is the length of the text. *)
Fixpoint replace (fuel : nat) (old new s : text) : text :=
  match fuel, s with
  | S n, c :: s' => match strip old s with
                    | Some rest => new ++ replace n old new rest
                    | None => c :: replace n old new s'
                    end
  | _, _ => s
  end.
(** partitioning.py:490-502  _rename_node. [scale f] is scale["feature_f"] as (mean, std), [None] when the key is missing;
    [fmt] is [str] of a float. *)
Definition rename_node (fmt : Qc -> string) (scale : nat -> option (Qc * Qc)) (name : string) : res string :=
  r <- foldM (fun (m : text * text) (nm : text) =>
         match scale (int_of (fst m)) with
         | None => Raise KeyError                                                             (* 497-498 *)
         | Some (mean, std) =>
             v <- float_of (snd m) ;;
             Ok (replace (length nm) (snd m) (text_of (fmt (std * v + mean))) nm)             (* 499-501 *)
         end) (finditer (length (text_of name)) (text_of name)) (text_of name) ;;
  Ok (string_of_list_ascii r).
(** partitioning.py:484-488  rename_nodes: the tree is changed in place, node after node. *)
Definition set_name (n : node) (name : string) : node :=
  mkNode (n_idx n) name (n_parent n) (n_level n) (n_heter n) (n_weight n) (n_nof n) (n_data n) (n_effect n) (n_split n).
Fixpoint rename_nodes (fmt : Qc -> string) (scale : nat -> option (Qc * Qc)) (t : tree) : tree * res unit :=
  match t with
  | [] => ([], Ok tt)
  | n :: t' =>
      match rename_node fmt scale (n_name n) with
      | Raise e => (t, Raise e)
      | Ok nm => let '(t'', r) := rename_nodes fmt scale t' in (set_name n nm :: t'', r)
      end
  end.
