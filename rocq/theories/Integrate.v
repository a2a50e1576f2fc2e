(** Integrate: model of effector/utils_integrate.py (the linspace helpers; the wrappers around scipy.integrate.quad are in Quad.v). *)
From Verif Require Import Base Numpy Utils.
Open Scope Qc_scope.

(** utils_integrate.py:34-45  mean_1d_linspace. None = NaN (np.mean of an empty array, nof_points < 2). *)
Definition mean_1d_linspace (func : list Qc -> list Qc) (start stop : Qc) (nof_points : nat) : NQ :=
  np_mean (func (midpoints (linspace start stop nof_points))).

(** utils_integrate.py:21-31  integrate_1d_linspace: sum over the 999 midpoints times (stop-start)/1000. *)
Definition integrate_1d_linspace (func : list Qc -> list Qc) (start stop : Qc) : Qc :=
  sumq (func (midpoints (linspace start stop 1000))) * (stop - start) / Q2Qc 1000.
