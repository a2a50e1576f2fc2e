(** C93: the answers of an ALE or RHALE object about one feature do not depend on the calls about the other features.
    [ucall] is a fit, eval or plot call, [urun] a history of them, and [about f] says whether a call names feature f
    (FeatHist.v). No hypothesis on the model, the data, the binning method or the arguments. *)
From Verif Require Import Base Numpy Spec NumpyFacts Utils Helpers Integrate Binning GlobalALE ALEState ALEHist Vis FeatHist.
Open Scope Qc_scope.
Open Scope list_scope.

(** * C93  Leaving out every call that does not name f changes neither eval nor plot of f *)
Theorem C93_other_features : forall c E rt ks f xs het cv,
  snd (eval c rt (urun c rt (fresh E) ks) f xs het cv) =
  snd (eval c rt (urun c rt (fresh E) (filter (about f) ks)) f xs het cv).
Proof.
  intros c E rt ks f xs het cv. apply (eval_rel c E rt f).
  - apply urun_good, fresh_good.
  - apply urun_good, fresh_good.
  - apply (urun_filter c E); [apply fresh_good..|apply same_at_refl].
Qed.
Print Assumptions C93_other_features.
Theorem C93_other_features_plot : forall c E rt ks f het cv sx sy sh avg,
  snd (aplot c rt (urun c rt (fresh E) ks) f het cv sx sy sh avg) =
  snd (aplot c rt (urun c rt (fresh E) (filter (about f) ks)) f het cv sx sy sh avg).
Proof.
  intros c E rt ks f het cv sx sy sh avg. apply (plot_rel c E rt f).
  - apply urun_good, fresh_good.
  - apply urun_good, fresh_good.
  - apply (urun_filter c E); [apply fresh_good..|apply same_at_refl].
Qed.
Print Assumptions C93_other_features_plot.

(** A fit of a list of features that succeeds is the same, for each of them, as fitting it alone, on this object or
    on a fresh one, so neither the other features in the list nor their order matters. *)
Theorem C93_fit_together : forall c E rt ks f feats m cv xs het cv',
  let st := urun c rt (fresh E) ks in
  snd (fit c st feats m cv) = Ok tt -> In f feats ->
  snd (fit c (fresh E) [f] m cv) = Ok tt /\
  snd (eval c rt (fst (fit c st feats m cv)) f xs het cv') = snd (eval c rt (fst (fit c st [f] m cv)) f xs het cv') /\
  snd (eval c rt (fst (fit c st feats m cv)) f xs het cv') = snd (eval c rt (fst (fit c (fresh E) [f] m cv)) f xs het cv').
Proof.
  intros c E rt ks f feats m cv xs het cv' st R I.
  assert (G : eff_ok c E st) by (apply urun_good, fresh_good). pose proof (fresh_good c E) as G0.
  destruct (fit_member c E f st st feats m cv tt G G R I) as (S1 & _).
  destruct (fit_member c E f st (fresh E) feats m cv tt G G0 R I) as (S2 & R2).
  split; [exact R2|]. split; apply (eval_rel c E rt f); auto; now apply (fit_good c E).
Qed.
Print Assumptions C93_fit_together.
Theorem C93_fit_succeeds : forall c E rt ks feats m cv, feats <> [] ->
  snd (fit c (urun c rt (fresh E) ks) feats m cv) = Ok tt <->
  forall g, In g feats -> snd (fit c (fresh E) [g] m cv) = Ok tt.
Proof.
  intros c E rt ks feats m cv NE. assert (G : eff_ok c E (urun c rt (fresh E) ks)) by (apply urun_good, fresh_good).
  assert (X : exists g, In g feats) by (destruct feats as [|g t]; [congruence|exists g; now left]). destruct X as (g & Ig).
  unfold fit. destruct (method_allowed c m); [|split; [discriminate|intros H; exact (H g Ig)]].
  destruct (prep_cent cv) as [ce|e]; [|split; [discriminate|intros H; exact (H g Ig)]]. now apply fit_loop_ok.
Qed.
Print Assumptions C93_fit_succeeds.
(** After a fit that succeeds for the features of one list, the order of the list is irrelevant. *)
Theorem C93_fit_order : forall c E rt ks f feats feats' m cv xs het cv',
  let st := urun c rt (fresh E) ks in (forall g, In g feats <-> In g feats') -> In f feats ->
  snd (fit c st feats m cv) = Ok tt ->
  snd (fit c st feats' m cv) = Ok tt /\
  snd (eval c rt (fst (fit c st feats m cv)) f xs het cv') = snd (eval c rt (fst (fit c st feats' m cv)) f xs het cv').
Proof.
  intros c E rt ks f feats feats' m cv xs het cv' st P I R.
  assert (NE : feats <> []) by (intros ->; destruct I). assert (NE' : feats' <> []) by (intros ->; destruct (proj1 (P f) I)).
  assert (R' : snd (fit c st feats' m cv) = Ok tt).
  { apply C93_fit_succeeds; [exact NE'|]. intros g Hg. apply (proj1 (C93_fit_succeeds c E rt ks feats m cv NE) R). now apply P. }
  split; [exact R'|]. destruct (C93_fit_together c E rt ks f feats m cv xs het cv' R I) as (_ & A & _).
  destruct (C93_fit_together c E rt ks f feats' m cv xs het cv' R' (proj1 (P f) I)) as (_ & B & _).
  etransitivity; [exact A|symmetry; exact B].
Qed.
Print Assumptions C93_fit_order.

(** A two-feature object whose history mixes both features, other binnings and plots. *)
Definition ex93 := mkCfg (KRHALE None) (mkData Float64 2 [qs [0; 5]; qs [0; 7]; qs [1; 1]; qs [1; 2]; qs [3; 0]; qs [3; 9]]) (map (fun r => r@0 * r@1)) (qs [0; 0]) (qs [3; 9]).
Definition ex93_calls :=
  [UCall (CallFit [0%nat; 1%nat] (MFixed 2 (Some 0%nat) 1) (PyBool true)); UCall (CallEval 1 (qs [1; 2]) true (PyBool true));
   UCall (CallFit [1%nat] (MFixed 1 (Some 0%nat) 1) (PyBool false))].
Example C93_instance :
  length (filter (about 0) ex93_calls) = 1%nat /\
  rmap (fun p => show (fst p)) (snd (eval ex93 (fun v => v) (urun ex93 (fun v => v) (fresh None) ex93_calls) 0 (qs [0; 1; 3]) true (PyBool false))) =
  rmap (fun p => show (fst p)) (snd (eval ex93 (fun v => v) (fst (fit ex93 (fresh None) [0%nat] (MFixed 2 (Some 0%nat) 1) (PyBool true))) 0 (qs [0; 1; 3]) true (PyBool false))) /\
  rmap (fun p => show (fst p)) (snd (eval ex93 (fun v => v) (urun ex93 (fun v => v) (fresh None) ex93_calls) 0 (qs [0; 1; 3]) true (PyBool false))) <>
  rmap (fun p => show (fst p)) (snd (eval ex93 (fun v => v) (fresh None) 0 (qs [0; 1; 3]) true (PyBool false))).
Proof. split; [reflexivity|]. split; [vm_compute; reflexivity|]. intros Q. vm_compute in Q. discriminate. Qed.
(** The condition that the fit succeeds is needed: fit stops at the first feature that raises, and what comes after
    it in the list is not fitted with the requested method. Feature 1 is constant here and cannot be fitted. *)
Definition ex93b := mkCfg (KRHALE None) (mkData Float64 2 [qs [0; 5]; qs [0; 5]; qs [1; 5]; qs [1; 5]; qs [3; 5]; qs [3; 5]]) (map (fun r => r@0 * r@0)) (qs [0; 5]) (qs [3; 5]).
Example C93_failure :
  let fit_of fs := fit ex93b (fresh None) fs (MFixed 1 (Some 0%nat) 1) (PyBool false) in
  let after fs := rmap (fun p => show (fst p)) (snd (eval ex93b (fun v => v) (fst (fit_of fs)) 0 (qs [0; 1; 3]) false (PyBool false))) in
  (exists e, snd (fit_of [1%nat; 0%nat]) = Raise e) /\ (exists e, snd (fit_of [0%nat; 1%nat]) = Raise e) /\ after [1%nat; 0%nat] <> after [0%nat; 1%nat].
Proof.
  cbv zeta. split; [|split].
  - eexists. vm_compute. reflexivity.
  - eexists. vm_compute. reflexivity.
  - intros Q. vm_compute in Q. discriminate.
Qed.
