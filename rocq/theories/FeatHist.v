(** Calls about one feature never influence what ALE/RHALE answer about another one (C93). *)
From Verif Require Import Base Numpy Spec NumpyFacts Utils UtilsProofs Helpers Integrate Binning GlobalALE ALEState ALEHist Vis.
Open Scope Qc_scope.
Open Scope list_scope.
Local Opaque curve_points.

(** The calls a user can make on one ALE or RHALE object: fit, eval (GlobalALE.call) and plot (Vis.aplot). *)
Inductive ucall :=
| UCall (k : call)
| UPlot (f : nat) (het centering : pyval) (sx sy : option scaling) (show_avg : bool) (avg : Qc).
Definition ustep (c : config) (rt : Qc -> Qc) (st : state) (k : ucall) : state :=
  match k with
  | UCall k => step c rt st k
  | UPlot f het cv sx sy sh avg => fst (aplot c rt st f het cv sx sy sh avg)
  end.
Definition urun (c : config) (rt : Qc -> Qc) (st : state) (ks : list ucall) : state := fold_left (ustep c rt) ks st.
(** The call is about feature f. *)
Definition about (f : nat) (k : ucall) : bool :=
  match k with
  | UCall (CallFit fs _ _) => existsb (Nat.eqb f) fs
  | UCall (CallEval g _ _ _) => Nat.eqb f g
  | UPlot g _ _ _ _ _ _ => Nat.eqb f g
  end.

Section Obj.
Variable c : config.
Variable E0 : option Mat.
Notation good := (eff_ok c E0).

Definition same_at (f : nat) (a b : state) : Prop :=
  st_fe a f = st_fe b f /\ st_args a f = st_args b f /\ st_fitted a f = st_fitted b f.
Lemma same_at_refl f a : same_at f a a. Proof. repeat split. Qed.
Lemma same_at_trans f a b d : same_at f a b -> same_at f b d -> same_at f a d.
Proof. intros (A & B & C) (D & F & G). repeat split; congruence. Qed.
Lemma same_at_sym f a b : same_at f a b -> same_at f b a.
Proof. intros (A & B & C). repeat split; congruence. Qed.

Lemma fit_one_good st g m ce : good st -> good (fst (fit_one c st g m ce)).
Proof.
  intros H. destruct (fit_feature_pure c E0 st g m H) as (_ & H1). unfold fit_one.
  destruct (fit_feature c st g m) as [st1 [p|e]]; cbn [fst] in *; [|exact H1].
  destruct ce; [exact H1| |]; (destruct (compute_norm_const c p g _); exact H1).
Qed.
Lemma fit_one_other st f g m ce : f <> g -> same_at f (fst (fit_one c st g m ce)) st.
Proof.
  intros N. destruct (fit_feature_fields c st g m) as (F1 & F2 & F3). unfold fit_one.
  destruct (fit_feature c st g m) as [st1 [p|e]]; cbn [fst] in *; [|unfold same_at; rewrite F1, F2, F3; auto].
  assert (A : forall v, same_at f (set_fe st1 g v) st).
  { intros v. unfold same_at. cbn [st_fe st_args st_fitted set_fe]. rewrite upd_other by exact N. rewrite F1, F2, F3. auto. }
  assert (B : forall v w, same_at f (set_fitted (set_fe (set_fe st1 g v) g w) g ce) st).
  { intros v w. unfold same_at. cbn [st_fe st_args st_fitted set_fe set_fitted]. rewrite !upd_other by exact N. rewrite F1, F2, F3. auto. }
  destruct ce; [apply B| |]; (destruct (compute_norm_const c p g _); [apply B|apply A]).
Qed.
(** the outcome of fitting one feature does not depend on the state *)
Lemma fit_one_result a b g m ce : good a -> good b -> snd (fit_one c a g m ce) = snd (fit_one c b g m ce).
Proof.
  intros HA HB. destruct (fit_feature_pure c E0 a g m HA) as (PA & _). destruct (fit_feature_pure c E0 b g m HB) as (PB & _).
  unfold fit_one. destruct (fit_feature c a g m) as [a1 ra], (fit_feature c b g m) as [b1 rb]. cbn [snd] in *. subst ra. rewrite PB.
  destruct (pfit c E0 g m) as [p|e]; [|reflexivity].
  destruct ce; [reflexivity| |]; (destruct (compute_norm_const c p g _); reflexivity).
Qed.
Lemma fit_one_rel f a b g m ce : good a -> good b -> same_at f a b -> same_at f (fst (fit_one c a g m ce)) (fst (fit_one c b g m ce)).
Proof.
  intros HA HB S. destruct (Nat.eq_dec f g) as [->|N].
  2:{ eapply same_at_trans; [apply fit_one_other; exact N|]. eapply same_at_trans; [exact S|]. apply same_at_sym, fit_one_other, N. }
  destruct (fit_feature_pure c E0 a g m HA) as (PA & _). destruct (fit_feature_pure c E0 b g m HB) as (PB & _).
  destruct (fit_feature_fields c a g m) as (A1 & A2 & A3). destruct (fit_feature_fields c b g m) as (B1 & B2 & B3).
  destruct S as (S1 & S2 & S3).
  unfold fit_one. destruct (fit_feature c a g m) as [a1 ra], (fit_feature c b g m) as [b1 rb]. cbn [fst snd] in *. subst ra. rewrite PB.
  destruct (pfit c E0 g m) as [p|e]; cbn [fst]; [|unfold same_at; repeat split; congruence].
  assert (A : forall v, same_at g (set_fe a1 g v) (set_fe b1 g v)).
  { intros v. unfold same_at. cbn [st_fe st_args st_fitted set_fe]. rewrite !upd_same. repeat split; congruence. }
  assert (B : forall v w, same_at g (set_fitted (set_fe (set_fe a1 g v) g w) g ce) (set_fitted (set_fe (set_fe b1 g v) g w) g ce)).
  { intros v w. unfold same_at. cbn [st_fe st_args st_fitted set_fe set_fitted]. rewrite !upd_same. auto. }
  destruct ce; [apply B| |]; (destruct (compute_norm_const c p g _); [apply B|apply A]).
Qed.

Lemma fit_loop_good fs m ce : forall st, good st -> good (fst (fit_loop c st fs m ce)).
Proof.
  induction fs as [|g fs IH]; intros st H; [exact H|]. simpl. pose proof (fit_one_good st g m ce H) as H1.
  destruct (fit_one c st g m ce) as [st' [u|e]]; cbn [fst] in *; auto.
Qed.
Lemma fit_loop_other f fs m ce : forall st, ~ In f fs -> same_at f (fst (fit_loop c st fs m ce)) st.
Proof.
  induction fs as [|g fs IH]; intros st N; [apply same_at_refl|]. simpl.
  assert (f <> g) by (intros ->; apply N; now left). assert (N' : ~ In f fs) by (intros Q; apply N; now right).
  pose proof (fit_one_other st f g m ce H) as H1. destruct (fit_one c st g m ce) as [st' [u|e]]; cbn [fst] in *; [|exact H1].
  eapply same_at_trans; [now apply IH|exact H1].
Qed.
Lemma fit_loop_rel f fs m ce : forall a b, good a -> good b -> same_at f a b ->
  same_at f (fst (fit_loop c a fs m ce)) (fst (fit_loop c b fs m ce)) /\ snd (fit_loop c a fs m ce) = snd (fit_loop c b fs m ce).
Proof.
  induction fs as [|g fs IH]; intros a b HA HB S; [split; [exact S|reflexivity]|]. simpl.
  pose proof (fit_one_result a b g m ce HA HB) as R. pose proof (fit_one_rel f a b g m ce HA HB S) as S1.
  pose proof (fit_one_good a g m ce HA) as GA. pose proof (fit_one_good b g m ce HB) as GB.
  destruct (fit_one c a g m ce) as [a1 ra], (fit_one c b g m ce) as [b1 rb]. cbn [fst snd] in *. subst rb.
  destruct ra; [now apply IH|]. cbn [fst snd]. auto.
Qed.

Lemma fit_good st fs m cv : good st -> good (fst (fit c st fs m cv)).
Proof. intros H. unfold fit. destruct (method_allowed c m); [|exact H]. destruct (prep_cent cv); [now apply fit_loop_good|exact H]. Qed.
Lemma fit_other f st fs m cv : ~ In f fs -> same_at f (fst (fit c st fs m cv)) st.
Proof. intros N. unfold fit. destruct (method_allowed c m); [|apply same_at_refl]. destruct (prep_cent cv); [now apply fit_loop_other|apply same_at_refl]. Qed.
Lemma fit_rel f a b fs m cv : good a -> good b -> same_at f a b ->
  same_at f (fst (fit c a fs m cv)) (fst (fit c b fs m cv)) /\ snd (fit c a fs m cv) = snd (fit c b fs m cv).
Proof. intros HA HB S. unfold fit. destruct (method_allowed c m); [|now split]. destruct (prep_cent cv); [now apply fit_loop_rel|now split]. Qed.

Lemma eval_good rt st g xs het cv : good st -> good (fst (eval c rt st g xs het cv)).
Proof.
  intros H. unfold eval. destruct (prep_cent cv) as [ce|]; [|exact H]. destruct (refit c st g ce) as [[|]|]; try exact H.
  pose proof (fit_good st [g] (default_method c) cv H) as H1. destruct (fit c st [g] (default_method c) cv) as [st' [u|e]]; exact H1.
Qed.
Lemma eval_other rt f st g xs het cv : f <> g -> same_at f (fst (eval c rt st g xs het cv)) st.
Proof.
  intros N. unfold eval. destruct (prep_cent cv) as [ce|]; [|apply same_at_refl]. destruct (refit c st g ce) as [[|]|]; try apply same_at_refl.
  assert (N1 : ~ In f [g]) by (intros [Q|[]]; congruence).
  pose proof (fit_other f st [g] (default_method c) cv N1) as H1. destruct (fit c st [g] (default_method c) cv) as [st' [u|e]]; exact H1.
Qed.
Lemma eval_rel rt f a b xs het cv : good a -> good b -> same_at f a b ->
  same_at f (fst (eval c rt a f xs het cv)) (fst (eval c rt b f xs het cv)) /\ snd (eval c rt a f xs het cv) = snd (eval c rt b f xs het cv).
Proof.
  intros HA HB S. unfold eval. destruct (prep_cent cv) as [ce|]; [|now split].
  assert (R : refit c a f ce = refit c b f ce) by (destruct S as (_ & S2 & S3); unfold refit; rewrite S2, S3; reflexivity). rewrite R.
  destruct (refit c b f ce) as [[|]|].
  - destruct (fit_rel f a b [f] (default_method c) cv HA HB S) as (S' & R').
    destruct (fit c a [f] (default_method c) cv) as [a1 ra], (fit c b [f] (default_method c) cv) as [b1 rb]. cbn [fst snd] in *. subst rb.
    destruct ra; cbn [fst snd]; [|now split]. split; [exact S'|]. rewrite !eval_fitted_entry. destruct S' as (Q & _). now rewrite Q.
  - cbn [fst snd]. split; [exact S|]. rewrite !eval_fitted_entry. destruct S as (Q & _). now rewrite Q.
  - now split.
Qed.

Lemma plot_good rt st g het cv sx sy sh avg : good st -> good (fst (aplot c rt st g het cv sx sy sh avg)).
Proof.
  intros H. unfold aplot. destruct (h <- prep_confidence_interval het ;; _) as [[[h ce] lo]|e]; [|exact H].
  pose proof (eval_good rt st g [lo] false ce H) as H1. destruct (eval c rt st g [lo] false ce) as [s1 [u|e]]; cbn [fst] in *; [|exact H1].
  destruct (st_fe s1 g) as [[p nc]|]; [|exact H1]. unfold ale_plot. destruct (a <- getn _ 0 ;; _) as [x|e]; [|exact H1].
  pose proof (eval_good rt s1 g x true ce H1) as H2. destruct (eval c rt s1 g x true ce); exact H2.
Qed.
Lemma plot_other rt f st g het cv sx sy sh avg : f <> g -> same_at f (fst (aplot c rt st g het cv sx sy sh avg)) st.
Proof.
  intros N. unfold aplot. destruct (h <- prep_confidence_interval het ;; _) as [[[h ce] lo]|e]; [|apply same_at_refl].
  pose proof (eval_other rt f st g [lo] false ce N) as H1. destruct (eval c rt st g [lo] false ce) as [s1 [u|e]]; cbn [fst] in *; [|exact H1].
  destruct (st_fe s1 g) as [[p nc]|]; [|exact H1]. unfold ale_plot. destruct (a <- getn _ 0 ;; _) as [x|e]; [|exact H1].
  pose proof (eval_other rt f s1 g x true ce N) as H2. destruct (eval c rt s1 g x true ce); cbn [fst] in *. eapply same_at_trans; eauto.
Qed.
Lemma plot_rel rt f a b het cv sx sy sh avg : good a -> good b -> same_at f a b ->
  same_at f (fst (aplot c rt a f het cv sx sy sh avg)) (fst (aplot c rt b f het cv sx sy sh avg)) /\
  snd (aplot c rt a f het cv sx sy sh avg) = snd (aplot c rt b f het cv sx sy sh avg).
Proof.
  intros HA HB S. unfold aplot. destruct (h <- prep_confidence_interval het ;; _) as [[[h ce] lo]|e]; [|now split].
  destruct (eval_rel rt f a b [lo] false ce HA HB S) as (S1 & R1). pose proof (eval_good rt a f [lo] false ce HA) as GA. pose proof (eval_good rt b f [lo] false ce HB) as GB.
  destruct (eval c rt a f [lo] false ce) as [a1 ra], (eval c rt b f [lo] false ce) as [b1 rb]. cbn [fst snd] in *. subst rb.
  destruct ra; [|now split]. pose proof S1 as (Q & _). rewrite Q. destruct (st_fe b1 f) as [[p nc]|]; [|now split].
  unfold ale_plot. destruct (a0 <- getn _ 0 ;; _) as [x|e]; [|now split].
  destruct (eval_rel rt f a1 b1 x true ce GA GB S1) as (S2 & R2).
  destruct (eval c rt a1 f x true ce) as [a2 ra], (eval c rt b1 f x true ce) as [b2 rb]. cbn [fst snd] in *. subst rb. now split.
Qed.

Lemma ustep_good rt st k : good st -> good (ustep c rt st k).
Proof. intros H. destruct k as [[fs m cv|g xs het cv]|g het cv sx sy sh avg]; simpl; [now apply fit_good|now apply eval_good|now apply plot_good]. Qed.
Lemma urun_good rt ks : forall st, good st -> good (urun c rt st ks).
Proof. induction ks as [|k ks IH]; intros st H; [exact H|]. simpl. apply IH, ustep_good, H. Qed.
Lemma ustep_other rt f st k : about f k = false -> same_at f (ustep c rt st k) st.
Proof.
  destruct k as [[fs m cv|g xs het cv]|g het cv sx sy sh avg]; simpl; intros N.
  - apply fit_other. intros Q. assert (existsb (Nat.eqb f) fs = true) by (apply existsb_exists; exists f; now rewrite Nat.eqb_refl). congruence.
  - apply eval_other. now apply Nat.eqb_neq.
  - apply plot_other. now apply Nat.eqb_neq.
Qed.
Lemma ustep_rel rt f a b k : good a -> good b -> same_at f a b -> same_at f (ustep c rt a k) (ustep c rt b k).
Proof.
  intros HA HB S. destruct (about f k) eqn:N.
  2:{ eapply same_at_trans; [now apply ustep_other|]. eapply same_at_trans; [exact S|]. now apply same_at_sym, ustep_other. }
  destruct k as [[fs m cv|g xs het cv]|g het cv sx sy sh avg]; simpl in *.
  - now apply fit_rel.
  - apply Nat.eqb_eq in N. subst g. now apply eval_rel.
  - apply Nat.eqb_eq in N. subst g. now apply plot_rel.
Qed.
Lemma urun_rel rt f ks : forall a b, good a -> good b -> same_at f a b -> same_at f (urun c rt a ks) (urun c rt b ks).
Proof.
  induction ks as [|k ks IH]; intros a b HA HB S; [exact S|]. simpl. apply IH; [now apply ustep_good..|now apply ustep_rel].
Qed.
Lemma urun_filter rt f ks : forall a b, good a -> good b -> same_at f a b -> same_at f (urun c rt a ks) (urun c rt b (filter (about f) ks)).
Proof.
  induction ks as [|k ks IH]; intros a b HA HB S; [exact S|]. simpl. destruct (about f k) eqn:N; simpl.
  - apply IH; [now apply ustep_good..|now apply ustep_rel].
  - apply IH; [now apply ustep_good|exact HB|]. eapply same_at_trans; [now apply ustep_other|exact S].
Qed.
Lemma fresh_good : good (fresh E0).
Proof. unfold eff_ok. destruct (c_kind c); [exact I|]. left. reflexivity. Qed.

(** a successful fit of several features fits each of them *)
Lemma fit_loop_member f fs m ce : forall a b u, good a -> good b -> snd (fit_loop c a fs m ce) = Ok u -> In f fs ->
  same_at f (fst (fit_loop c a fs m ce)) (fst (fit_loop c b [f] m ce)) /\ snd (fit_loop c b [f] m ce) = Ok tt.
Proof.
  assert (D : forall a b, good a -> good b -> (exists u, snd (fit_one c b f m ce) = Ok u) -> same_at f (fst (fit_one c a f m ce)) (fst (fit_one c b f m ce))).
  { intros a b HA HB (u & R). pose proof (fit_one_result a b f m ce HA HB) as RA. rewrite R in RA.
    destruct (fit_one c a f m ce) as [a1 ra] eqn:FA, (fit_one c b f m ce) as [b1 rb] eqn:FB. cbn [fst snd] in *. subst ra rb.
    destruct (fit_feature_pure c E0 a f m HA) as (PA & _). destruct (fit_feature_pure c E0 b f m HB) as (PB & _).
    unfold fit_one in FA, FB. destruct (fit_feature c a f m) as [a2 ra], (fit_feature c b f m) as [b2 rb]. cbn [snd] in *. subst ra rb.
    destruct (pfit c E0 f m) as [p|e]; [|discriminate].
    destruct ce.
    - injection FA as <- _. injection FB as <- _. unfold same_at; cbn [st_fe st_args st_fitted set_fe set_fitted]; rewrite !upd_same; auto.
    - destruct (compute_norm_const c p f _); [|discriminate]. injection FA as <- _. injection FB as <- _.
      unfold same_at; cbn [st_fe st_args st_fitted set_fe set_fitted]; rewrite !upd_same; auto.
    - destruct (compute_norm_const c p f _); [|discriminate]. injection FA as <- _. injection FB as <- _.
      unfold same_at; cbn [st_fe st_args st_fitted set_fe set_fitted]; rewrite !upd_same; auto. }
  induction fs as [|g fs IH]; intros a b u HA HB R I; [destruct I|]. simpl in R |- *.
  pose proof (fit_one_good a g m ce HA) as GA.
  destruct (fit_one c a g m ce) as [a1 [v|e]] eqn:F; cbn [fst snd] in *; [|discriminate].
  destruct (in_dec Nat.eq_dec f fs) as [J|J].
  - specialize (IH a1 b u GA HB R J). exact IH.
  - destruct I as [->|I]; [|contradiction]. assert (RB : snd (fit_one c b f m ce) = Ok v) by (rewrite <- (fit_one_result a b f m ce HA HB), F; reflexivity).
    specialize (D a b HA HB (ex_intro _ v RB)). rewrite F in D. cbn [fst] in D.
    destruct (fit_one c b f m ce) as [b1 rb]. cbn [snd fst] in *. subst rb. cbn [fst snd]. split; [|reflexivity].
    eapply same_at_trans; [apply fit_loop_other, J|exact D].
Qed.
Lemma fit_member f a b fs m cv u : good a -> good b -> snd (fit c a fs m cv) = Ok u -> In f fs ->
  same_at f (fst (fit c a fs m cv)) (fst (fit c b [f] m cv)) /\ snd (fit c b [f] m cv) = Ok tt.
Proof.
  unfold fit. intros HA HB. destruct (method_allowed c m); [|discriminate]. destruct (prep_cent cv) as [ce|]; [|discriminate]. now apply fit_loop_member.
Qed.
(** a fit of several features succeeds exactly when the fit of each of them does *)
Lemma fit_loop_ok fs m ce : forall a, good a -> (snd (fit_loop c a fs m ce) = Ok tt <-> forall g, In g fs -> snd (fit_loop c (fresh E0) [g] m ce) = Ok tt).
Proof.
  induction fs as [|g fs IH]; intros a HA; [simpl; split; [intros _ g []|reflexivity]|].
  pose proof (fit_one_good a g m ce HA) as GA. pose proof (fit_one_result a (fresh E0) g m ce HA fresh_good) as R.
  simpl. destruct (fit_one c a g m ce) as [a1 ra]. cbn [fst snd] in *.
  assert (T : forall x : res unit, match x with Ok _ => Ok tt | Raise e => Raise e end = x) by (intros [[]|]; reflexivity).
  assert (K : forall h, snd (let (st', r) := fit_one c (fresh E0) h m ce in match r with Ok _ => (st', Ok tt) | Raise e => (st', Raise e) end) = snd (fit_one c (fresh E0) h m ce))
    by (intros h; destruct (fit_one c (fresh E0) h m ce) as [s [[]|e]]; reflexivity).
  destruct ra as [[]|e].
  - rewrite (IH a1 GA). simpl. split; [intros H h [<-|J]; [rewrite K; congruence|now apply H]|intros H h J; apply H; now right].
  - cbn [snd]. split; [discriminate|]. intros H. specialize (H g (or_introl eq_refl)). rewrite K in H. congruence.
Qed.
End Obj.
