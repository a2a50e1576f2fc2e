(** PlotSpec: vocabulary of the properties of plots (C50, C63, C65, C66). *)
From Verif Require Import Base Spec.
Open Scope Qc_scope.
Open Scope list_scope.

(** A value shown on an axis with the scaling {"mean": mean, "std": std}, or without scaling. *)
Definition rescale (s : option (Qc * Qc)) (v : Qc) : Qc :=
  match s with None => v | Some (mean, std) => mean + std * v end.
(** The factor by which lengths on that axis are stretched. *)
Definition stretch (s : option (Qc * Qc)) : Qc := match s with None => 1 | Some (_, std) => std end.
(** [rt] is the square root at [v]. *)
Definition sqrt_at (rt : Qc -> Qc) (v : Qc) : Prop := 0 <= rt v /\ rt v * rt v = v.
(** The band of half-width [ws] around the curve [ys]. *)
Definition is_band (ys ws : list Qc) (b : list Qc * list Qc) : Prop :=
  fst b = map (fun p => fst p - snd p) (combine ys ws) /\ snd b = map (fun p => fst p + snd p) (combine ys ws).
