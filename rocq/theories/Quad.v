(** Quad: model of the scipy-based helpers of effector/utils_integrate.py and of the parameter dictionaries of
    effector/helpers.py. scipy.integrate.quad is a parameter of the model. *)
From Verif Require Import Base Numpy Utils Helpers.
Open Scope Qc_scope.
Open Scope list_scope.

(** A bound of an integral: a number or an infinity (the defaults of expectation_1D are -np.inf and np.inf). *)
Inductive bound := MinusInf | At (q : Qc) | PlusInf.
(** scipy.integrate.quad(func, a, b): the value and the error estimate; the exceptions of func go through. *)
Definition quadrature := (Qc -> res Qc) -> bound -> bound -> res (Qc * Qc).

(** utils_integrate.py:5-18  integrate_1d_quad: quad calls func on the array with the single point. *)
Definition integrate_1d_quad (quad : quadrature) (func : list Qc -> list Qc) (start stop : Qc) : res Qc :=
  rmap fst (quad (fun x => getn (func [x]) 0) (At start) (At stop)).

(** utils_integrate.py:48-66  expectation_1D; any s other than 0 counts as 1. The result is the pair of quad. *)
Definition expectation_1D (quad : quadrature) (xs : Qc) (func : Mat -> list Qc) (p_xc : Qc -> Qc) (s : nat) (start stop : bound) : res (Qc * Qc) :=
  quad (fun xc => let x := if Nat.eqb s 0 then [xs; xc] else [xc; xs] in
                  v <- getn (func [x]) 0 ;; Ok (v * p_xc xc)) start stop.

(** scipy.integrate.dblquad(func, a, b, gfun, hfun): the integral of func(y, x) for y from gfun(x) to hfun(x) and x from
    a to b, by two nested calls of quad. *)
Definition dblquad (quad : quadrature) (func : Qc -> Qc -> res Qc) (a b : bound) (gfun hfun : Qc -> res bound) : res (Qc * Qc) :=
  quad (fun x => lo <- gfun x ;; hi <- hfun x ;; rmap fst (quad (fun y => func y x) lo hi)) a b.

(** utils_integrate.py:69-100  expecation_2D (sic); axis_limits is the array of two rows. For s > 2 the variable x of
    func_wrap is never assigned. *)
Definition expecation_2D (quad : quadrature) (xs : Qc) (func : Mat -> list Qc) (p_xc : Qc -> Qc -> Qc) (s : nat) (mins maxs : list Qc) : res (Qc * Qc) :=
  let func_wrap xc1 xc2 :=
    x <- match s with
         | 0%nat => Ok [xs; xc1; xc2] | 1%nat => Ok [xc1; xs; xc2] | 2%nat => Ok [xc1; xc2; xs]   (* 82-88 *)
         | _ => Raise UnboundLocalError
         end ;;
    v <- getn (func [x]) 0 ;; Ok (v * p_xc xc1 xc2) in
  a <- getn mins 2 ;; b <- getn maxs 2 ;;                                                          (* 99 *)
  dblquad quad func_wrap (At a) (At b) (fun _ => rmap At (getn mins 1)) (fun _ => rmap At (getn maxs 1)).

(** A Python dictionary: the first entry of a key counts. *)
Definition dict := list (string * pyval).
Definition lookup (k : string) (d : dict) : option pyval := option_map snd (find (fun p => String.eqb (fst p) k) d).
Definition is_int (v : pyval) : bool := match v with PyInt _ => true | _ => false end.
(** `if key in par.keys(): assert ok(par[key]) else: par[key] = default` *)
Definition complete (k : string) (ok : pyval -> bool) (default : pyval) (d : dict) : res dict :=
  match lookup k d with
  | Some v => if ok v then Ok d else Raise AssertionError
  | None => Ok (d ++ [(k, default)])
  end.
Definition is_method (v : pyval) : bool :=
  match v with PyStr s => existsb (String.eqb s) ["fixed"; "greedy"; "dp"]%string | _ => false end.

(** helpers.py:50-74  prep_dale_fit_params (unused in the package). None is written PyOther. The check of
    min_points_per_bin looks at max_nof_bins (70). *)
Definition prep_dale_fit_params (par : option dict) : res dict :=
  let d0 := match par with None => [] | Some d => d end in
  d1 <- complete "bin_method" is_method (PyStr "fixed") d0 ;;
  d2 <- complete "nof_bins" is_int (PyInt 100) d1 ;;
  d3 <- complete "max_nof_bins" is_int (PyInt 20) d2 ;;
  complete "min_points_per_bin" (fun _ => match lookup "max_nof_bins" d3 with Some v => is_int v | None => false end) PyOther d3.
(** helpers.py:77-82  prep_ale_fit_params (unused in the package); None has no keys. *)
Definition prep_ale_fit_params (par : option dict) : res dict :=
  match par with None => Raise AttributeError | Some d => complete "nof_bins" is_int (PyInt 100) d end.
