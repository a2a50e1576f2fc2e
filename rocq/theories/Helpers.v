(** Helpers: model of effector/helpers.py. *)
From Coq Require Import DecimalString DecimalNat.
From Verif Require Import Base Numpy Utils.
Open Scope Qc_scope.
Open Scope list_scope.

(** The Python values passed as [features], [centering], [heterogeneity], [nof_instances].
    [PyOther] stands for every value of any other type (None, float, tuple, ndarray, ...). *)
Inductive pyval :=
| PyBool (b : bool) | PyStr (s : string) | PyInt (z : Z) | PyList (l : list Z) | PyOther.

(** helpers.py:10-16  prep_features. Any string other than "all" is returned unchanged. *)
Definition prep_features (feat : pyval) (D : nat) : res pyval :=
  match feat with
  | PyStr s => if String.eqb s "all" then Ok (PyList (map Z.of_nat (seq 0 D))) else Ok (PyStr s)
  | PyInt z => Ok (PyList [z])
  | PyList l => Ok (PyList l)
  | PyBool _ | PyOther => Raise AssertionError                    (* line 11 *)
  end.

(** helpers.py:19-27  prep_centering *)
Definition prep_centering (c : pyval) : res pyval :=
  match c with
  | PyBool true => Ok (PyStr "zero_integral")                     (* line 25-26 *)
  | PyBool false => Ok (PyBool false)
  | PyStr s => if (String.eqb s "zero_start" || String.eqb s "zero_integral")%bool
               then Ok (PyStr s) else Raise AssertionError        (* line 22 *)
  | _ => Raise AssertionError                                     (* line 20 *)
  end.

(** helpers.py:30-37  prep_confidence_interval *)
Definition prep_confidence_interval (c : pyval) : res pyval :=
  match c with
  | PyBool true => Ok (PyStr "std")
  | PyBool false => Ok (PyBool false)
  | PyStr s => if (String.eqb s "std" || String.eqb s "std_err" || String.eqb s "ice" || String.eqb s "shap_values")%bool
               then Ok (PyStr s) else Raise AssertionError
  | _ => Raise AssertionError
  end.

(** helpers.py:40-47  axis_limits_from_data: the pair of rows (minima, maxima). *)
Definition axis_limits_from_data (X : data) : res (list Qc * list Qc) :=
  mins <- mapM (fun d => np_min (col (rows X) d)) (seq 0 (dim X)) ;;
  maxs <- mapM (fun d => np_max (col (rows X) d)) (seq 0 (dim X)) ;;
  Ok (mins, maxs).

(** helpers.py:85-107  prep_nof_instances. [choice N n] is np.random.choice(N, n, replace=False),
    an oracle; a negative count makes numpy raise ValueError. *)
Definition prep_nof_instances (choice : nat -> nat -> list nat) (nof : pyval) (N : nat)
  : res (Z * list nat) :=
  match nof with
  | PyInt n => if (n <? Z.of_nat N)%Z
               then if (n <? 0)%Z then Raise ValueError else Ok (n, choice N (Z.to_nat n))
               else Ok (n, seq 0 N)
  | PyStr s => if String.eqb s "all" then Ok (Z.of_nat N, seq 0 N) else Raise AssertionError
  | _ => Raise AssertionError
  end.

(** helpers.py:110-112  get_feature_names *)
Definition nat_to_string (n : nat) : string := NilEmpty.string_of_uint (Nat.to_uint n).
Definition get_feature_names (D : nat) : list string := map (fun i => String.append "x_" (nat_to_string i)) (seq 0 D).

(** helpers.py:115-118  prep_avg_output; [scale_y] = Some (std, mean). np.mean of no data is NaN. *)
Definition prep_avg_output (X : data) (model : Mat -> list Qc) (avg : option Qc) (scale_y : option (Qc * Qc)) : NQ :=
  let a := match avg with Some v => Some v | None => np_mean (model (rows X)) end in
  match scale_y with
  | None => a
  | Some (std, mean) => option_map (fun v => v * std + mean) a
  end.

(** helpers.py:121-125  drop_points_outside_axis_limits (limits of the feature passed as two numbers) *)
Definition drop_points_outside (X : data) (lo hi : Qc) (f : nat) : data :=
  let r1 := filter (fun r => lo <=? nth f r 0) (rows X) in
  mkData (dt X) (dim X) (filter (fun r => nth f r 0 <=? hi) r1).

(** [data[indices, :]] *)
Definition select_rows {A} (l : list (list A)) (idx : list nat) : res (list (list A)) := take l idx.
