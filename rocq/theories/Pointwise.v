(** Evaluation is pointwise and the heterogeneity flag does not change the curve (C94). *)
From Verif Require Import Base Numpy Spec NumpyFacts Utils UtilsProofs FillProofs AccProofs Helpers Integrate HelpersProofs Binning
  GlobalALE ALEState ALEHist GlobalPDP PDPFacts PDPProofs GlobalShap.
Open Scope Qc_scope.
Open Scope list_scope.

(** ** ALE and RHALE *)
Lemma vzip_lengths {A B C D} (f : A -> B -> C) (g : A -> B -> D) a a' b r : length a = length a' -> vzip f a b = Ok r -> exists r', vzip g a' b = Ok r'.
Proof.
  unfold vzip. intros E. rewrite E. destruct (Nat.eqb (length a') (length b)); [eauto|].
  destruct a as [|x [|y a]], a' as [|x' [|y' a']]; try discriminate E; destruct b as [|z [|w b]]; try discriminate; eauto.
Qed.
Lemma acc_lengths l es es' dx : length es = length es' -> l <> [] -> (length l - 1 <= length es)%nat -> (length l - 1 <= length dx)%nat ->
  (exists g, forall xs, compute_accumulated_effect xs l es dx false = Ok (map g xs)) ->
  exists g, forall xs, compute_accumulated_effect xs l es' dx false = Ok (map g xs).
Proof.
  intros E N L1 L2 (g & Hg). destruct (acc_uniform l es' dx false N) as [H|(e & H)]; [lia|exact L2|exact H|].
  exfalso. specialize (Hg []). specialize (H []). unfold compute_accumulated_effect in Hg, H.
  apply bind_ok in Hg as (ind & Hi & Hg). rewrite Hi in H. cbn [bind] in H. cbv zeta in *.
  apply bind_ok in Hg as (pr & Hv & Hg). destruct (vzip_lengths _ (fun e d : Qc => e * d) _ es' dx pr E Hv) as (pr' & Hv'). cbv iota in H. rewrite Hv' in H. cbn [bind] in H.
  assert (I : ind = []).
  { unfold digitize in Hi. destruct (mono_incr l); [injection Hi as <-; reflexivity|]. destruct (mono_decr l); [injection Hi as <-; reflexivity|discriminate]. }
  subst ind. apply bind_ok in Hg as (a1 & H1 & Hg). apply bind_ok in Hg as (l0 & H2 & Hg). rewrite H2 in H.
  apply bind_ok in Hg as (a3 & H3 & Hg). apply bind_ok in Hg as (bl & H4 & Hg).
  assert (Z : exists z, getz es' (-1) = Ok z).
  { destruct es' as [|w es']; [|eexists; now rewrite (getz_last (w :: es') 0) by discriminate].
    destruct es; [|discriminate E]. discriminate H4. }
  destruct Z as (z & Z). rewrite Z in H. cbn in H. discriminate.
Qed.
Lemma ale_params_lengths xs es l p : compute_ale_params xs es l = Ok p -> length (ap_effect p) = length (ap_var p).
Proof.
  unfold compute_ale_params. cbv zeta. intros H.
  apply bind_ok in H as ([be ppb] & HB & H). apply bind_ok in H as ([bv bev] & HV & H).
  apply bind_ok in H as (e & He & H). apply bind_ok in H as (v & Hv & H). apply bind_ok in H as (w & Hw & H).
  inversion H; subst; clear H. cbn [ap_effect ap_var].
  apply fill_nans_length in He, Hv.
  unfold compute_bin_effect in HB. apply bind_ok in HB as (idx & HI & HB). cbv zeta in HB.
  apply bind_ok in HB as (ag & HA & HB). apply bind_ok in HB as (pp & HP & HB). inversion HB; subst; clear HB.
  unfold compute_bin_variance in HV. apply bind_ok in HV as (idx' & HI' & HV). cbv zeta in HV.
  apply bind_ok in HV as (mm & _ & HV). apply bind_ok in HV as (vp & _ & HV).
  apply bind_ok in HV as (ag' & HA' & HV). apply bind_ok in HV as (pp' & HP' & HV). inversion HV; subst; clear HV.
  assert (idx' = idx) by congruence. subst idx'.
  apply bincount_w_length in HA as [HA1 HA2], HA' as [HA1' HA2']. apply bincount_length in HP, HP'.
  rewrite divide_where_length in He by congruence. rewrite divide_where_length in Hv by congruence. congruence.
Qed.
Lemma heter_uniform rt p g : from_fit p -> (forall xs, eval_unnorm p xs = Ok (map g xs)) -> exists gh, forall xs, eval_heter rt p xs = Ok (map gh xs).
Proof.
  intros (xs & es & l & H) Hg. destruct (ale_params_shape _ _ _ _ H) as (Hl & E1 & E2 & L1 & L2 & L3).
  unfold eval_heter. unfold eval_unnorm in Hg. rewrite E1, E2 in *.
  apply (acc_lengths l (ap_effect p)); [rewrite map_length; eapply ale_params_lengths; eauto|exact Hl|exact L1|rewrite diffs_length; lia|eauto].
Qed.

Lemma eval_curve c rt st f xs het cv y h : inv c st -> snd (eval c rt st f xs het cv) = Ok (y, h) ->
  exists g gh, forall zs het', snd (eval c rt st f zs het' cv) = Ok (map g zs, if het' then Some (map gh zs) else None).
Proof.
  intros I H. destruct (eval c rt st f xs het cv) as [st' r] eqn:EV. cbn [snd] in H. subst r.
  destruct (eval_ok c rt st f xs het cv st' y h I EV) as (ce & p & nc & g & PC & FE & FF & Fi & L1 & L2 & D & LH & Hg & _ & _ & _ & Hce).
  destruct (heter_uniform rt p g FF Hg) as (gh & Hgh).
  exists (fun x => g x - shift_of c f ce g), gh. intros zs het'.
  assert (K : eval_fitted c rt st' f zs het' ce = Ok (map (fun x => g x - shift_of c f ce g) zs, if het' then Some (map gh zs) else None)).
  { unfold eval_fitted. rewrite (getn_ok _ _ 0) by exact L1. cbn [bind]. rewrite (getn_ok _ _ 0) by exact L2. cbn [bind].
    unfold lo_of, hi_of in LH. rewrite (proj2 (Qcltb_lt _ _) LH). cbn [assert_ bind]. rewrite FE, Hg, Hgh. cbn [bind].
    assert (Y : match ce with NoCent => Ok (map g zs) | _ => match nc with None => Raise KeyError | Some z => Ok (map (fun v => v - z) (map g zs)) end end
       = Ok (map (fun x => g x - shift_of c f ce g) zs)).
    { destruct ce.
      - f_equal. apply map_ext. intros x. cbn [shift_of]. ring.
      - destruct (Hce ltac:(discriminate)) as (_ & ->). now rewrite map_map.
      - destruct (Hce ltac:(discriminate)) as (_ & ->). now rewrite map_map. }
    destruct het'; cbn [rmap bind]; rewrite Y; reflexivity. }
  unfold eval in *. rewrite PC in *. destruct (refit c st f ce) as [[|]|]; [| |discriminate].
  - destruct (fit c st [f] (default_method c) cv) as [st1 [u|e]]; [|discriminate]. injection EV as -> _. cbn [snd]. exact K.
  - injection EV as -> _. cbn [snd]. exact K.
Qed.

(** ** ShapDP *)
Lemma seval_curve c st f xs het cv y h : snd (seval c st f xs het cv) = Ok (y, h) ->
  exists g gh, forall zs het', snd (seval c st f zs het' cv) = Ok (map g zs, if het' then Some (map gh zs) else None).
Proof.
  assert (K : forall st ce, seval_fitted c st f xs het ce = Ok (y, h) ->
     exists g gh, forall zs het', seval_fitted c st f zs het' ce = Ok (map g zs, if het' then Some (map gh zs) else None)).
  { intros s ce H. unfold seval_fitted in *. apply bind_ok in H as (lo & H1 & H). apply bind_ok in H as (hi & H2 & H). apply bind_ok in H as (u & H3 & H).
    rewrite H1, H2. cbn [bind]. rewrite H3. cbn [bind]. destruct (ss_fe s f) as [v|]; [|discriminate]. cbv zeta.
    destruct ce; [exists (f_mean v), (f_std v); reflexivity|..]; (exists (fun x => f_mean v x - f_norm v), (f_std v); intros zs het'; now rewrite map_map). }
  unfold seval. destruct (prep_cent cv) as [ce|]; [|discriminate]. destruct (srefit st f ce) as [[|]|]; [| |discriminate].
  - destruct (sfit c st [f] cv (PyInt 100)) as [s1 [u|e]]; [|discriminate]. apply K.
  - apply K.
Qed.

(** ** PDP and d-PDP *)
Section P.
Variables (c : pconfig) (g : list Qc -> Qc) (G : list Qc -> list Qc).
Lemma sub_norm_curve (v : list Qc -> Qc -> Qc) (Z : Mat) nrm : 
  (exists R, forall xs, sub_norm (length Z) (ice_matrix v Z xs) nrm = Ok (map R xs)) \/ (forall xs, sub_norm (length Z) (ice_matrix v Z xs) nrm = Raise ValueError).
Proof.
  assert (W : forall xs, width (length Z) (ice_matrix v Z xs) = length Z) by (intros [|x xs]; cbn; [reflexivity|now rewrite map_length]).
  unfold sub_norm. destruct (Nat.eqb (length Z) (length nrm) || Nat.eqb (length Z) 1 || Nat.eqb (length nrm) 1)%bool eqn:Q.
  - left. assert (V : forall x, exists r, vzip Qcminus (map (fun r => v r x) Z) nrm = Ok r).
    { intros x. apply orb_prop in Q as [Q|Q]; [apply orb_prop in Q as [Q|Q]|].
      - unfold vzip. rewrite map_length, Q. eauto.
      - apply Nat.eqb_eq in Q. destruct Z as [|z [|]]; try discriminate. unfold vzip. cbn [map]. destruct (Nat.eqb _ _); eauto.
      - apply Nat.eqb_eq in Q. destruct nrm as [|z [|]]; try discriminate. unfold vzip. destruct (Nat.eqb _ _); [eauto|].
        destruct (map (fun r => v r x) Z) as [|? [|? ?]]; eauto. }
    exists (fun x => match vzip Qcminus (map (fun r => v r x) Z) nrm with Ok r => r | Raise _ => [] end). intros xs. cbv zeta. rewrite W, Q.
    unfold ice_matrix. induction xs as [|x xs IH]; [reflexivity|]. cbn [map mapM]. destruct (V x) as (r & E). rewrite E. cbn [bind].
    rewrite IH. reflexivity.
  - right. intros xs. cbv zeta. now rewrite W, Q.
Qed.
Definition shown_out (rt : Qc -> Qc) (R : Qc -> list Qc) (al het : bool) (zs : list Qc) : pout := summary rt al het (map R zs).

Lemma peval_fitted_curve rt st f ce : row_object c (dim (ps_data st)) g G -> wf_data (ps_data st) -> (f < dim (ps_data st))%nat ->
  forall xs het al vec o, vec = true \/ xs <> [] -> peval_fitted c rt st f xs het ce al vec = Ok o ->
  exists R, forall zs het' al' vec', vec' = true \/ zs <> [] -> peval_fitted c rt st f zs het' ce al' vec' = Ok (summary rt al' het' (map R zs)).
Proof.
  intros RO W F xs het al vec o V H. unfold peval_fitted in *. apply bind_ok in H as (lo & H1 & H). apply bind_ok in H as (hi & H2 & H). apply bind_ok in H as (u & H3 & H).
  rewrite H1, H2. cbn [bind]. rewrite H3. cbn [bind]. rewrite (predict_eq c g G vec (ps_data st) xs f RO W F V) in H. cbn [bind] in H.
  assert (K : forall R : Qc -> list Qc, (forall zs : list Qc, match ce with NoCent => Ok (ice_matrix (pvalue (p_kind c) (dt (ps_data st)) g G f) (rows (ps_data st)) zs) | _ => match ps_norm st f with None => Raise KeyError | Some n => sub_norm (length (rows (ps_data st))) (ice_matrix (pvalue (p_kind c) (dt (ps_data st)) g G f) (rows (ps_data st)) zs) n end end = Ok (map R zs)) ->
    forall (zs : list Qc) (het' al' vec' : bool), vec' = true \/ zs <> [] -> (yy <- predict c vec' (ps_data st) zs f ;; yy' <- match ce with NoCent => Ok yy | _ => match ps_norm st f with None => Raise KeyError | Some n => sub_norm (length (rows (ps_data st))) yy n end end ;; Ok (if al' then OAll yy' else if het' then OMeanStd (row_means yy') (row_stds rt yy') else OMean (row_means yy'))) = Ok (summary rt al' het' (map R zs))).
  { intros R HR zs het' al' vec' V'. rewrite (predict_eq c g G vec' (ps_data st) zs f RO W F V'). cbn [bind].
    specialize (HR zs). rewrite HR. cbn [bind]. reflexivity. }
  destruct ce.
  - exists (fun x => map (fun r => pvalue (p_kind c) (dt (ps_data st)) g G f r x) (rows (ps_data st))). apply (K (fun x => map (fun r => pvalue (p_kind c) (dt (ps_data st)) g G f r x) (rows (ps_data st)))). reflexivity.
  - destruct (ps_norm st f) as [n|]; [|discriminate]. destruct (sub_norm_curve (pvalue (p_kind c) (dt (ps_data st)) g G f) (rows (ps_data st)) n) as [(R & HR)|HR]; [|rewrite HR in H; discriminate].
    exists R. apply K, HR.
  - destruct (ps_norm st f) as [n|]; [|discriminate]. destruct (sub_norm_curve (pvalue (p_kind c) (dt (ps_data st)) g G f) (rows (ps_data st)) n) as [(R & HR)|HR]; [|rewrite HR in H; discriminate].
    exists R. apply K, HR.
Qed.
Lemma drop_wf X lo hi f : wf_data X -> wf_data (drop_points_outside X lo hi f).
Proof. intros W r Hr. unfold drop_points_outside in *. cbn [rows dim] in *. apply filter_In in Hr as (Hr & _). apply filter_In in Hr as (Hr & _). now apply W. Qed.
Lemma pfit_feature_vec X f ce vec vec' : row_object c (dim X) g G -> wf_data X -> pfit_feature c X f ce default_pts vec = pfit_feature c X f ce default_pts vec'.
Proof.
  intros RO W. unfold pfit_feature. destruct (Nat.ltb_spec f (dim X)) as [F|F]; [|reflexivity]. destruct (lo <- getn (p_mins c) f ;; _) as [[lo hi]|]; [|reflexivity].
  cbv zeta. f_equal. pose proof (drop_wf X lo hi f W) as W'.
  assert (NE : linspace lo hi 100 <> []). { intros E. apply (f_equal (@length _)) in E. rewrite linspace_length in E. discriminate. }
  destruct ce; [reflexivity| |].
  - rewrite !(predict_eq c g G _ (drop_points_outside X lo hi f) [lo] f RO W' F) by (right; discriminate). reflexivity.
  - unfold default_pts, pts_of. change (100 <? 0)%Z with false. cbv iota. change (Z.to_nat 100) with 100%nat. cbn [bind].
    rewrite !(predict_eq c g G _ (drop_points_outside X lo hi f) (linspace lo hi 100) f RO W' F) by (right; exact NE). reflexivity.
Qed.
Lemma pfit_feature_keeps X f ce pts vec : wf_data X -> wf_data (fst (pfit_feature c X f ce pts vec)) /\ dim (fst (pfit_feature c X f ce pts vec)) = dim X.
Proof.
  intros W. unfold pfit_feature. destruct (Nat.ltb f (dim X)); [|now split]. destruct (lo <- getn (p_mins c) f ;; _) as [[lo hi]|]; [|now split].
  cbv zeta. cbn [fst]. split; [now apply drop_wf|reflexivity].
Qed.
Definition keeps_shape (n : nat) (st : pstate) : Prop := wf_data (ps_data st) /\ dim (ps_data st) = n.
Lemma pfit_loop_shape n fs ce pts vec : forall st, keeps_shape n st -> keeps_shape n (fst (pfit_loop c st fs ce pts vec)).
Proof.
  induction fs as [|f fs IH]; intros st (W & D); [now split|]. simpl. unfold pfit_one.
  destruct (pfit_feature_keeps (ps_data st) f ce pts vec W) as (W1 & D1). destruct (pfit_feature c (ps_data st) f ce pts vec) as [X' [v|e]]; cbn [fst] in *.
  - apply IH. split; cbn [ps_data]; [exact W1|congruence].
  - split; cbn [ps_data]; [exact W1|congruence].
Qed.
Lemma pfit_shape n st fs cv pts vec : keeps_shape n st -> keeps_shape n (fst (pfit c st fs cv pts vec)).
Proof. intros H. unfold pfit. destruct (prep_cent cv); [now apply pfit_loop_shape|exact H]. Qed.
Lemma prun_shape n rt ks : forall st, keeps_shape n st -> keeps_shape n (prun c rt st ks).
Proof.
  induction ks as [|k ks IH]; intros st H; [exact H|]. simpl. apply IH. destruct k as [fs cv pts vec|f xs het cv al vec]; cbn [pstep]; [now apply pfit_shape|].
  unfold peval. destruct (prep_cent cv) as [ce|]; [|exact H]. destruct (prefit st f ce) as [[|]|]; try exact H.
  pose proof (pfit_shape n st [f] cv default_pts vec H) as H1. destruct (pfit c st [f] cv default_pts vec) as [s [u|e]]; exact H1.
Qed.

Lemma peval_curve rt n st f cv xs het al vec o : row_object c n g G -> keeps_shape n st -> vec = true \/ xs <> [] ->
  snd (peval c rt st f xs het cv al vec) = Ok o ->
  exists R, forall zs het' al' vec', vec' = true \/ zs <> [] -> snd (peval c rt st f zs het' cv al' vec') = Ok (summary rt al' het' (map R zs)).
Proof.
  intros RO (W & D) V H. unfold peval in *. destruct (prep_cent cv) as [ce|] eqn:PC; [|discriminate].
  assert (F : (f < n)%nat). { unfold prefit in H. destruct (Nat.ltb_spec f (dim (ps_data st))); [lia|discriminate]. }
  destruct (prefit st f ce) as [[|]|]; [| |discriminate].
  - assert (E : forall v', pfit c st [f] cv default_pts v' = pfit c st [f] cv default_pts vec).
    { intros v'. unfold pfit. rewrite PC. simpl. unfold pfit_one. rewrite (pfit_feature_vec (ps_data st) f ce v' vec); [reflexivity|now rewrite D|exact W]. }
    pose proof (pfit_shape n st [f] cv default_pts vec (conj W D)) as (W1 & D1).
    destruct (pfit c st [f] cv default_pts vec) as [s1 [u|e]] eqn:PF; [|discriminate]. cbn [fst snd] in *.
    destruct (peval_fitted_curve rt s1 f ce) with (xs := xs) (het := het) (al := al) (vec := vec) (o := o) as (R & HR); auto; [now rewrite D1|lia|].
    exists R. intros zs het' al' vec' V'. rewrite E. cbn [snd]. now apply HR.
  - cbn [snd] in *. destruct (peval_fitted_curve rt st f ce) with (xs := xs) (het := het) (al := al) (vec := vec) (o := o) as (R & HR); auto; [now rewrite D|lia|].
    exists R. intros zs het' al' vec' V'. now apply HR.
Qed.
End P.
