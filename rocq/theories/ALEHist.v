(** History independence of ALE/RHALE evaluation with the default binning (C23). *)
From Verif Require Import Base Numpy Spec NumpyFacts Utils UtilsProofs FillProofs AccProofs Helpers Integrate HelpersProofs Binning GlobalALE ALEState.
Open Scope Qc_scope.
Open Scope list_scope.

Section Obj.
Variable c : config.
Variable E0 : option Mat.

(** the parameters a fresh object computes *)
Definition pfit (f : nat) (m : method) : res ale_params := snd (fit_feature c (fresh E0) f m).

Definition eff_ok (st : state) : Prop :=
  match c_kind c with
  | KALE => True
  | KRHALE jac => st_eff st = E0 \/ (E0 = None /\ exists E, compile c jac = Ok E /\ st_eff st = Some E)
  end.

Lemma fit_feature_pure st f m : eff_ok st ->
  snd (fit_feature c st f m) = pfit f m /\ eff_ok (fst (fit_feature c st f m)).
Proof.
  unfold eff_ok, pfit, fit_feature. destruct (c_kind c) as [|jac]; [auto|].
  change (st_eff (fresh E0)) with E0. intros [H|(HN & E & HE & H)].
  - rewrite H. destruct E0 as [e|]; cbn [fst snd].
    + split; [reflexivity|]. left. reflexivity.
    + destruct (compile c jac) as [E|e] eqn:HE; cbn [fst snd].
      * split; [reflexivity|]. right. split; [reflexivity|]. exists E. auto.
      * split; [reflexivity|]. left. exact H.
  - rewrite H, HN, HE. cbn [fst snd]. split; [reflexivity|]. right. split; [reflexivity|]. exists E. auto.
Qed.

(** the result of fitting one feature on a fresh object *)
Definition pfit_one (f : nat) (m : method) (ce : cent) : res ale_params :=
  p <- pfit f m ;;
  match ce with NoCent => Ok p | _ => _ <- compute_norm_const c p f ce ;; Ok p end.

Definition sound (m : method) (st : state) (f : nat) : Prop :=
  st_fitted st f = true ->
  exists p nc ce, st_args st f = Some ce /\ st_fe st f = Some (p, nc) /\ pfit f m = Ok p /\
    (ce <> NoCent -> exists z, nc = Some z /\ compute_norm_const c p f ce = Ok z).
Definition hinv (m : method) (st : state) : Prop := eff_ok st /\ forall f, sound m st f.

Lemma pfit_from f m p : pfit f m = Ok p -> from_fit p /\ (f < length (c_mins c))%nat /\ (f < length (c_maxs c))%nat.
Proof.
  unfold pfit. destruct (fit_feature c (fresh E0) f m) as [st r] eqn:F. simpl. intros ->. 
  split; [eapply find_fit_from_fit; eauto|]. apply fit_feature_limits in F. tauto.
Qed.

Lemma norm_const_all f m p ce ce' z : pfit f m = Ok p -> ce <> NoCent -> ce' <> NoCent ->
  compute_norm_const c p f ce = Ok z -> exists z', compute_norm_const c p f ce' = Ok z'.
Proof.
  intros P N N' H. destruct (pfit_from _ _ _ P) as (Q & L1 & L2).
  destruct (eval_unnorm_uniform p Q) as [(g & Hg)|(e & Hg)].
  - eexists. eapply norm_const_ok; eauto.
  - rewrite (norm_const_raise c p f ce e L1 L2 N Hg) in H. discriminate.
Qed.

Lemma fit_one_hinv m st f ce : hinv m st -> hinv m (fst (fit_one c st f m ce)) /\
  rmap (fun _ => tt) (snd (fit_one c st f m ce)) = rmap (fun _ => tt) (pfit_one f m ce).
Proof.
  intros (HE & HS). destruct (fit_feature_pure st f m HE) as (EP & HE1).
  pose proof (fit_feature_fields c st f m) as (F1 & F2 & F3).
  unfold fit_one, pfit_one. destruct (fit_feature c st f m) as [st1 r] eqn:F. cbn [fst snd] in *. rewrite <- EP.
  destruct r as [p|e].
  2:{ split; [|reflexivity]. split; [exact HE1|]. intros k. unfold sound. cbn [fst]. rewrite F1, F2, F3. apply HS. }
  assert (EF : forall v, eff_ok (set_fe st1 f v)) by (intros v; exact HE1).
  assert (EF2 : forall v ce, eff_ok (set_fitted (set_fe (set_fe st1 f (p, None)) f v) f ce)) by (intros v ce'; exact HE1).
  assert (G : forall z, (ce <> NoCent -> compute_norm_const c p f ce = Ok z) -> hinv m (set_fitted (set_fe (set_fe st1 f (p, None)) f (p, Some z)) f ce)).
  { intros z Hz. split; [apply EF2|]. intros k Hk. cbn [st_fe st_args st_fitted set_fitted set_fe] in *. destruct (Nat.eq_dec k f) as [->|N].
    - exists p, (Some z), ce. rewrite !upd_same. split; [reflexivity|]. split; [reflexivity|]. split; [congruence|]. intros Q. exists z. auto.
    - rewrite !upd_other in * by exact N. rewrite F1, F2. rewrite F3 in Hk. now apply HS. }
  assert (G2 : forall e, ce <> NoCent -> compute_norm_const c p f ce = Raise e -> hinv m (set_fe st1 f (p, None))).
  { intros e Nc He. split; [apply EF|]. intros k Hk. cbn [st_fe st_args st_fitted set_fe] in *. rewrite F2. rewrite F3 in Hk.
    destruct (HS k Hk) as (p0 & nc & ce0 & A & B & C & D). destruct (Nat.eq_dec k f) as [->|N].
    - rewrite upd_same. exists p, None, ce0. split; [exact A|]. split; [reflexivity|]. split; [congruence|].
      intros N0. exfalso. destruct (D N0) as (z & _ & Hz). assert (p0 = p) by congruence. subst p0.
      destruct (norm_const_all f m p ce0 ce z C N0 Nc Hz) as (z' & Hz'). congruence.
    - rewrite upd_other by exact N. rewrite F1. exists p0, nc, ce0. auto. }
  unfold bind at 1. destruct ce.
  - cbn [fst snd]. split; [apply G; congruence|reflexivity].
  - destruct (compute_norm_const c p f ZeroStart) as [z|e] eqn:N; cbn [fst snd]; (split; [|reflexivity]); [apply G; auto|eapply G2; eauto; discriminate].
  - destruct (compute_norm_const c p f ZeroIntegral) as [z|e] eqn:N; cbn [fst snd]; (split; [|reflexivity]); [apply G; auto|eapply G2; eauto; discriminate].
Qed.
Lemma fit_loop_hinv m fs : forall st ce, hinv m st -> hinv m (fst (fit_loop c st fs m ce)).
Proof.
  induction fs as [|f fs IH]; intros st ce H; [exact H|]. simpl. destruct (fit_one_hinv m st f ce H) as (H1 & _).
  destruct (fit_one c st f m ce) as [st' [u|e]]; cbn [fst] in *; [now apply IH|exact H1].
Qed.
Lemma fit_hinv m st fs cv : hinv m st -> hinv m (fst (fit c st fs m cv)).
Proof. intros H. unfold fit. destruct (method_allowed c m); [|exact H]. destruct (prep_cent cv); [now apply fit_loop_hinv|exact H]. Qed.

Lemma hinv_fresh m : hinv m (fresh E0).
Proof. split; [|intros f H; discriminate]. unfold eff_ok. destruct (c_kind c); [exact I|]. left. reflexivity. Qed.

Lemma default_allowed : method_allowed c (default_method c) = true.
Proof. unfold method_allowed, default_method. destruct (c_kind c); reflexivity. Qed.

(** fit of a single feature with the default method from any state satisfying the invariant *)
Lemma fit_single st f cv ce : prep_cent cv = Ok ce -> hinv (default_method c) st ->
  match fit c st [f] (default_method c) cv with
  | (_, Raise e) => pfit_one f (default_method c) ce = Raise e
  | (st', Ok _) => exists p z, pfit_one f (default_method c) ce = Ok p /\ st_fe st' f = Some (p, Some z) /\ (ce <> NoCent -> compute_norm_const c p f ce = Ok z)
  end.
Proof.
  intros PC H. unfold fit. rewrite default_allowed, PC. simpl.
  pose proof (fit_one_hinv (default_method c) st f ce H) as (_ & R). destruct (fit_one c st f (default_method c) ce) as [st' [u|e]] eqn:F; cbn [snd] in R.
  - apply fit_one_ok in F as (st1 & p & z & A & B & C & D & G). exists p, z.
    destruct H as (HE & _). destruct (fit_feature_pure st f (default_method c) HE) as (EP & _). rewrite A in EP. cbn [snd] in EP.
    split; [|split; [exact B|exact G]]. unfold pfit_one. rewrite <- EP. unfold bind at 1.
    destruct ce; [reflexivity| |]; (rewrite G by discriminate); reflexivity.
  - destruct (pfit_one f (default_method c) ce); simpl in R; congruence.
Qed.

(** eval_fitted depends on the state only through the entry of the feature *)
Definition eval_entry (rt : Qc -> Qc) (f : nat) (xs : list Qc) (het : bool) (ce : cent) (fe : option (ale_params * option Qc)) :=
  eval_fitted c rt (mkSt None (fun _ => fe) (fun _ => None) (fun _ => false)) f xs het ce.
Lemma eval_fitted_entry rt st f xs het ce : eval_fitted c rt st f xs het ce = eval_entry rt f xs het ce (st_fe st f).
Proof. reflexivity. Qed.
Lemma eval_entry_nocent rt f xs het p nc nc' : eval_entry rt f xs het NoCent (Some (p, nc)) = eval_entry rt f xs het NoCent (Some (p, nc')).
Proof. reflexivity. Qed.

Lemma eval_refit_case rt st f xs het ce cv : hinv (default_method c) st -> prep_cent cv = Ok ce ->
  snd (match fit c st [f] (default_method c) cv with (st', Raise e) => (st', Raise e) | (st', Ok _) => (st', eval_fitted c rt st' f xs het ce) end)
  = (p <- pfit f (default_method c) ;;
     match ce with NoCent => eval_entry rt f xs het ce (Some (p, None))
     | _ => z <- compute_norm_const c p f ce ;; eval_entry rt f xs het ce (Some (p, Some z)) end).
Proof.
  intros H PC. pose proof (fit_single st f cv ce PC H) as F.
  destruct (fit c st [f] (default_method c) cv) as [st' [u|e]]; cbn [snd].
  - destruct F as (p & z & A & B & C). rewrite eval_fitted_entry, B. unfold pfit_one in A. apply bind_ok in A as (p' & A1 & A2). rewrite A1. unfold bind at 1.
    destruct ce.
    + inversion A2; subst. apply eval_entry_nocent.
    + apply bind_ok in A2 as (z' & Z & Q). inversion Q; subst. now rewrite C by discriminate.
    + apply bind_ok in A2 as (z' & Z & Q). inversion Q; subst. now rewrite C by discriminate.
  - unfold pfit_one in F. destruct (pfit f (default_method c)) as [p|e']; unfold bind at 1 in F; [|simpl; congruence]. unfold bind at 1.
    destruct ce; [discriminate| |]; (destruct (compute_norm_const c p f _); unfold bind in F; [discriminate|simpl; congruence]).
Qed.

Lemma eval_hist rt st f xs het cv : hinv (default_method c) st ->
  snd (eval c rt st f xs het cv) =
  (ce <- prep_cent cv ;;
   if Nat.ltb f (dim (c_data c)) then
     p <- pfit f (default_method c) ;;
     match ce with NoCent => eval_entry rt f xs het ce (Some (p, None))
     | _ => z <- compute_norm_const c p f ce ;; eval_entry rt f xs het ce (Some (p, Some z)) end
   else Raise IndexError).
Proof.
  intros H. unfold eval. destruct (prep_cent cv) as [ce|e] eqn:PC; [|reflexivity]. unfold bind at 1. unfold refit.
  destruct (Nat.ltb f (dim (c_data c))); [|reflexivity].
  destruct (st_fitted st f) eqn:Fi; cbn [negb]; [|now apply eval_refit_case].
  destruct (proj2 H f Fi) as (p & nc & ce0 & A & B & P & N). rewrite A.
  assert (K : ce <> NoCent -> cent_eqb ce0 ce = true -> snd (st, eval_fitted c rt st f xs het ce) =
     (p <- pfit f (default_method c) ;; z <- compute_norm_const c p f ce ;; eval_entry rt f xs het ce (Some (p, Some z)))).
  { intros N1 Q. assert (ce0 = ce) by (destruct ce0, ce; simpl in Q; congruence). subst ce0. destruct (N N1) as (z & -> & Z).
    cbn [snd]. rewrite eval_fitted_entry, B, P. unfold bind at 1. rewrite Z. reflexivity. }
  destruct ce.
  - cbn [snd]. rewrite eval_fitted_entry, B, P. unfold bind at 1. apply eval_entry_nocent.
  - destruct (cent_eqb ce0 ZeroStart) eqn:Q; cbn [negb]; [apply K; congruence|]. now apply eval_refit_case with (ce := ZeroStart).
  - destruct (cent_eqb ce0 ZeroIntegral) eqn:Q; cbn [negb]; [apply K; congruence|]. now apply eval_refit_case with (ce := ZeroIntegral).
Qed.

Lemma eval_hinv rt st f xs het cv : hinv (default_method c) st -> hinv (default_method c) (fst (eval c rt st f xs het cv)).
Proof.
  intros H. unfold eval. destruct (prep_cent cv) as [ce|]; [|exact H]. destruct (refit c st f ce) as [[|]|]; try exact H.
  pose proof (fit_hinv (default_method c) st [f] cv H) as H1. destruct (fit c st [f] (default_method c) cv) as [st' [u|e]]; exact H1.
Qed.

Definition default_binning (k : call) : Prop := match k with CallFit _ m _ => m = default_method c | CallEval _ _ _ _ => True end.
Lemma run_hinv rt ks : forall st, Forall default_binning ks -> hinv (default_method c) st -> hinv (default_method c) (run c rt st ks).
Proof.
  induction ks as [|k ks IH]; intros st F H; [exact H|]. simpl. inversion F; subst. apply IH; [assumption|].
  destruct k as [fs m cv|f xs het cv]; simpl in *; [subst m; now apply fit_hinv|now apply eval_hinv].
Qed.

Lemma history_independent rt ks f xs het cv : Forall default_binning ks ->
  snd (eval c rt (run c rt (fresh E0) ks) f xs het cv) = snd (eval c rt (fresh E0) f xs het cv).
Proof.
  intros F. rewrite !eval_hist; [reflexivity|apply hinv_fresh|]. apply run_hinv; [exact F|apply hinv_fresh].
Qed.
End Obj.
