(** Prop_FloatNan: C106, missing and undefined values (NaN). *)
From Coq Require Import Reals Permutation.
From Flocq Require Import Core.
From Flocq Require Import IEEE754.BinarySingleNaN.
From Verif Require Import Base Numpy NumpyFacts FloatModel FloatMean FloatNan Prop_FloatMean.
Open Scope nat_scope.

Lemma fold_min_nan (l : list b64) : fold_left fmin l fnan = fnan. Proof. induction l; [reflexivity|exact IHl]. Qed.
Lemma fold_max_nan (l : list b64) : fold_left fmax l fnan = fnan. Proof. induction l; [reflexivity|exact IHl]. Qed.
Lemma fold_min_in (l : list b64) : forall a, In fnan (a :: l) -> fold_left fmin l a = fnan.
Proof.
  induction l as [|b l IH]; intros a H; [destruct H as [->|[]]; reflexivity|]. cbn [fold_left]. destruct H as [->|[->|H]].
  - apply fold_min_nan.
  - replace (fmin a fnan) with fnan; [apply fold_min_nan|]. unfold fmin. destruct (is_nan a) eqn:E; [now rewrite (nan_eq a E)|reflexivity].
  - apply IH. now right.
Qed.
Lemma fold_max_in (l : list b64) : forall a, In fnan (a :: l) -> fold_left fmax l a = fnan.
Proof.
  induction l as [|b l IH]; intros a H; [destruct H as [->|[]]; reflexivity|]. cbn [fold_left]. destruct H as [->|[->|H]].
  - apply fold_max_nan.
  - replace (fmax a fnan) with fnan; [apply fold_max_nan|]. unfold fmax. destruct (is_nan a) eqn:E; [now rewrite (nan_eq a E)|reflexivity].
  - apply IH. now right.
Qed.

(** A single NaN in the column of the feature, with the default axis limits: the limits are NaN, no instance is inside them,
    and the fit raises IndexError - whatever the model, the number of bins and the rest of the data. *)
Theorem C106_missing_value X model f nof_bins m cat_limit :
  In fnan (col64 X f) ->
  exists lo hi, axis_limits64 X f = Ok (lo, hi) /\ lo = fnan /\ hi = fnan /\ ale_fit_feature64 X model lo hi f nof_bins m cat_limit = Raise IndexError.
Proof.
  intros H. exists fnan, fnan. unfold axis_limits64, np_min64, np_max64. destruct (col64 X f) as [|a l] eqn:E; [destruct H|].
  cbn [bind]. rewrite (fold_min_in l a H), (fold_max_in l a H). repeat split.
  unfold ale_fit_feature64. assert (F : filter (in_range64 fnan fnan f) X = []).
  { clear. induction X as [|r X IH]; [reflexivity|]. cbn [filter]. unfold in_range64 at 1. replace (Bleb fnan (nth f r fnan)) with false by (destruct (nth f r fnan); reflexivity). exact IH. }
  rewrite F. reflexivity.
Qed.

(** With axis limits given by the user, the instances where the feature is missing are ignored. *)
Theorem C106_ignored X model lo hi f nof_bins m cat_limit :
  ale_fit_feature64 X model lo hi f nof_bins m cat_limit = ale_fit_feature64 (filter (fun r => negb (is_nan (nth f r fnan))) X) model lo hi f nof_bins m cat_limit.
Proof.
  unfold ale_fit_feature64. replace (filter (in_range64 lo hi f) (filter _ X)) with (filter (in_range64 lo hi f) X); [reflexivity|].
  induction X as [|r X IH]; [reflexivity|]. cbn [filter]. destruct (is_nan (nth f r fnan)) eqn:E; cbn [negb].
  - replace (in_range64 lo hi f r) with false; [exact IH|]. unfold in_range64. rewrite (nan_eq _ E). destruct lo; reflexivity.
  - cbn [filter]. now rewrite IH.
Qed.

(** An undefined effect (the model returned NaN for one instance, or inf - inf) makes all the instances of its bin count for
    nothing: replacing their effects by anything else changes neither the curve nor the heterogeneity. *)
Theorem C106_bin_discarded xs es es' l ind :
  l <> [] -> digitize64 xs (widen64 l) = Ok ind -> length xs = length es -> length es = length es' ->
  (forall i, i < length xs -> nth i es fnan = nth i es' fnan \/
     exists j, j < length xs /\ nth j ind 0 = nth i ind 0 /\ is_nan (nth j es fnan) = true /\ is_nan (nth j es' fnan) = true) ->
  compute_ale_params64 xs es l = compute_ale_params64 xs es' l.
Proof.
  intros NL D Le Le' H. set (idx := map (fun i => (Z.of_nat i - 1)%Z) ind).
  assert (I : bin_indices64 xs l = Ok idx). { unfold bin_indices64. destruct l; [congruence|]. rewrite D. reflexivity. }
  assert (Li : length ind = length xs). { unfold digitize64 in D. destruct (mono_incr64 _); [|destruct (mono_decr64 _); [|discriminate]]; (match type of D with Ok ?a = _ => assert (E : ind = a) by congruence end; rewrite E; apply map_length). }
  assert (Lx : length idx = length xs) by (unfold idx; rewrite map_length; exact Li).
  assert (Nz : forall i, i < length xs -> nth i idx 0%Z = (Z.of_nat (nth i ind 0%nat) - 1)%Z).
  { intros i Hi. unfold idx. rewrite (nth_indep _ 0%Z ((fun i => (Z.of_nat i - 1)%Z) 0%nat)) by (rewrite map_length; lia). apply (map_nth (fun i => (Z.of_nat i - 1)%Z)). }
  assert (R : nan_alike idx es es').
  { split; [exact Le'|]. rewrite Lx. intros i Hi. destruct (H i Hi) as [->|(j & Hj & E & N & N')]; [now left|right]. exists j. rewrite !Nz by assumption. rewrite E. auto. }
  unfold compute_ale_params64. replace (compute_bin_effect64 xs es' l) with (compute_bin_effect64 xs es l).
  - destruct (compute_bin_effect64 xs es l) as [[be ppb]|]; [|reflexivity]. cbn [bind]. rewrite (variance_alike xs es es' l be idx I ltac:(lia) R). reflexivity.
  - unfold compute_bin_effect64. rewrite I. cbn [bind]. now rewrite (bincount_alike idx es es' _ R).
Qed.

(** So "one undefined value does not hide the effect of the other instances" is false: three instances of the first bin have the
    effect 5 and one has NaN; the two bins are both reported with the effect 0 of the second bin, and no error. *)
Definition nan_xs : list b64 := map fofZ [0; 0; 1; 1; 3; 4]%Z.
Definition nan_es : list b64 := map fofZ [5; 5; 5]%Z ++ [fnan] ++ map fofZ [0; 0]%Z.
Definition nan_l : list b64 := map fofZ [0; 2; 4]%Z.
Theorem C106_refuted :
  (p <- compute_ale_params64 nan_xs nan_es nan_l ;; Ok (map (fun x => B2SF x) (p64_effect p), map (fun x => B2SF x) (p64_var p), p64_points p))
  = Ok (map (fun x => B2SF x) [fzero; fzero], map (fun x => B2SF x) [fzero; fzero], [4; 2]).
Proof. vm_compute. reflexivity. Qed.

Lemma tsum_nan t : In fnan (leaves t) -> tsum t = fnan.
Proof.
  induction t as [x|a IHa b IHb]; cbn [leaves tsum]; intros H; [destruct H as [->|[]]; reflexivity|].
  apply in_app_or in H as [H|H]; [rewrite (IHa H); apply fadd_nan_l|rewrite (IHb H); apply fadd_nan_r].
Qed.

(** PDP, in contrast, reports NaN at every position at which one instance has an undefined output, in whatever order np.mean adds. *)
Theorem C106_pdp g X f x t :
  Permutation (leaves t) (pdp_outputs64 g X f x) -> (exists r, In r X /\ is_nan (g (list_set r f x)) = true) ->
  np_mean64 t (length X) = fnan.
Proof.
  intros P (r & Hr & N). unfold np_mean64. rewrite tsum_nan; [apply fdiv_nan_l|]. eapply Permutation_in; [symmetry; exact P|].
  unfold pdp_outputs64. apply in_map_iff. exists r. split; [now apply nan_eq|exact Hr].
Qed.

Print Assumptions C106_missing_value. Print Assumptions C106_ignored. Print Assumptions C106_bin_discarded. Print Assumptions C106_refuted. Print Assumptions C106_pdp.

(** non-trivial cases: the instances of [nan_es]'s first bin may have any effects; the fit of a table with a missing value fails, and
    works on given limits *)
Definition nan_es' : list b64 := map fofZ [-7; 9; 1000]%Z ++ [fnan] ++ map fofZ [0; 0]%Z.
Example C106_discarded_instance : compute_ale_params64 nan_xs nan_es nan_l = compute_ale_params64 nan_xs nan_es' nan_l.
Proof.
  apply (C106_bin_discarded nan_xs nan_es nan_es' nan_l [1; 1; 1; 1; 2; 2]); [discriminate|vm_compute; reflexivity|reflexivity|reflexivity|].
  intros i Hi. change (length nan_xs) with 6 in *. destruct i as [|[|[|[|[|[|i]]]]]]; [| | | | | |lia].
  1, 2, 3: right; exists 3; cbn; repeat split; lia.
  all: left; reflexivity.
Qed.
Definition nan_rows : list (list b64) := [[fofZ 0; fofZ 1]; [fnan; fofZ 2]; [fofZ 1; fofZ 3]; [fofZ 3; fofZ 3]].
Example C106_missing_instance : In fnan (col64 nan_rows 0) /\
  match ale_fit_feature64 nan_rows (map (fun r => nth 0 r fnan)) (fofZ 0) (fofZ 3) 0 2 0 2 with Ok p => p64_points p = [2; 1] | _ => False end.
Proof. split; [cbn; auto|vm_compute; reflexivity]. Qed.
