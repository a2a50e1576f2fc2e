(** PartSpec: the vocabulary in which the properties of the partitioning code are stated. It does not use
    the model: only lists, numbers and the two kinds of features. *)
From Verif Require Import Base Spec.
From Verif Require Import Utils.   (* for the type of feature kinds, [ftype] = Cat | Cont *)
Open Scope Qc_scope.
Open Scope list_scope.

(** A condition on an instance: feature number, kind of the feature, position. An instance satisfies it when
    the feature equals the position (categorical) or is smaller than the position (numerical). *)
Definition cond := (nat * ftype * Qc)%type.
Definition satisfies (c : cond) (r : list Qc) : bool :=
  let '(f, t, p) := c in match t with Cat => r@f =? p | Cont => r@f <? p end.

(** All the ways to answer [n] conditions, in the order yes..yes, ..., no..no. *)
Fixpoint paths (n : nat) : list (list bool) :=
  match n with O => [[]] | S n' => flat_map (fun p => [p ++ [true]; p ++ [false]]) (paths n') end.

(** The instance answers the first conditions of [cs] as [path] says. *)
Definition inside (cs : list cond) (path : list bool) (r : list Qc) : bool :=
  forallb (fun q => Bool.eqb (satisfies (fst q) r) (snd q)) (combine cs path).
(** The subregion [path]: its instances, and the effect rows of its instances. *)
Definition region (X : list (list Qc)) (cs : list cond) (path : list bool) : list (list Qc) :=
  filter (inside cs path) X.
Definition region_effects (X E : list (list Qc)) (cs : list cond) (path : list bool) : list (list Qc) :=
  map snd (filter (fun p => inside cs path (fst p)) (combine X E)).

(** [hs] are the heterogeneities of the subregions [ps] (with the effects when there are effects). *)
Definition heterogeneities (h : list (list Qc) -> option (list (list Qc)) -> res Qc)
    (X : list (list Qc)) (E : option (list (list Qc))) (cs : list cond) (ps : list (list bool)) (hs : list Qc) : Prop :=
  Forall2 (fun p v => h (region X cs p) (option_map (fun e => region_effects X e cs p) E) = Ok v) ps hs.

(** Weights proportional to the number of instances plus one. *)
Definition weighted (sizes : list nat) (vs : list Qc) : Qc :=
  sumq (map (fun p => qn (fst p + 1) / qn (sumn (map (fun m => m + 1)%nat sizes)) * snd p) (combine sizes vs)).
(** Drop of each subregion w.r.t. its parent: subregion number k has parent number k/2. *)
Definition drops (before after : list Qc) : list Qc :=
  map (fun k => before@(k / 2) - after@k) (seq 0 (length after)).

(** The equally spaced candidate positions of a numerical feature with [n] candidates: the centres of [n]
    equal parts of [lo, hi]. *)
Definition centre (lo hi : Qc) (n i : nat) : Qc := lo + (qn i + Q2Qc (1#2)) * ((hi - lo) / qn n).
Definition is_min (l : list Qc) (v : Qc) : Prop := In v l /\ forall x, In x l -> v <= x.
Definition is_max (l : list Qc) (v : Qc) : Prop := In v l /\ forall x, In x l -> x <= v.
(** The values of feature [f]. *)
Definition values (X : list (list Qc)) (f : nat) : list Qc := map (fun r => r@f) X.
(** [p] is a candidate position for feature [f] of kind [t]. *)
Definition candidate (X : list (list Qc)) (n : nat) (f : nat) (t : ftype) (p : Qc) : Prop :=
  match t with
  | Cat => In p (values X f)
  | Cont => exists lo hi i, is_min (values X f) lo /\ is_max (values X f) hi /\ (i < n)%nat /\ p = centre lo hi n i
  end.
