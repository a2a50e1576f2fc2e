(** Proofs about the ALE/RHALE object as a state machine (C20, C23, C24). *)
From Verif Require Import Base Numpy Spec NumpyFacts Utils UtilsProofs FillProofs AccProofs Helpers Integrate HelpersProofs Binning GlobalALE.
Open Scope Qc_scope.
Open Scope list_scope.

(** ** compute_accumulated_effect succeeds for all evaluation points or for none *)
Lemma take_map {A B} (l : list A) (d : A) (h : B -> nat) xs : (forall x, In x xs -> (h x < length l)%nat) ->
  take l (map h xs) = Ok (map (fun x => nth (h x) l d) xs).
Proof.
  intros H. rewrite (take_ok l (map h xs) d).
  - now rewrite map_map.
  - intros i Hi. apply in_map_iff in Hi as (x & <- & Hx). auto.
Qed.

Lemma vzip_length {A B C} (f : A -> B -> C) a b r n : vzip f a b = Ok r -> (n <= length a)%nat -> (n <= length b)%nat -> (n <= length r)%nat.
Proof.
  unfold vzip. destruct (Nat.eqb_spec (length a) (length b)) as [E|E].
  - intros H; inversion H; subst. rewrite map_length, combine_length. lia.
  - destruct a as [|x [|x' a]], b as [|y [|y' b]]; intros H; inversion H; subst; simpl; rewrite ?map_length; simpl; lia.
Qed.

Lemma digitize_map xs l r : digitize xs l = Ok r -> exists h, (forall x, (h x <= length l)%nat) /\ forall ys, digitize ys l = Ok (map h ys).
Proof.
  unfold digitize. destruct (mono_incr l).
  - intros _. exists (digitize1 l). split; [apply digitize1_le|reflexivity].
  - destruct (mono_decr l); [|discriminate]. intros _. exists (digitize1d l). split; [intros x; apply filter_length_le|reflexivity].
Qed.

Lemma acc_uniform l es dx sq : l <> [] -> (length l - 1 <= length es)%nat -> (length l - 1 <= length dx)%nat ->
  (exists g, forall xs, compute_accumulated_effect xs l es dx sq = Ok (map g xs)) \/
  (exists e, forall xs, compute_accumulated_effect xs l es dx sq = Raise e).
Proof.
  intros Hl He Hd. destruct (digitize [] l) as [r|e] eqn:D.
  2:{ right. exists e. intros xs. unfold compute_accumulated_effect. revert D. unfold digitize.
      destruct (mono_incr l); [discriminate|]. destruct (mono_decr l); [discriminate|]. intros D. inversion D. reflexivity. }
  destruct (digitize_map _ _ _ D) as (h & Hh & Dh).
  destruct (vzip (fun e d => if sq then e * (d * d) else e * d) es dx) as [prod|e] eqn:V.
  2:{ right. exists e. intros xs. unfold compute_accumulated_effect. rewrite Dh. unfold bind at 1. rewrite V. reflexivity. }
  pose proof (vzip_length _ _ _ _ (length l - 1) V He Hd) as Lp.
  assert (Ll : (1 <= length l)%nat) by (destruct l; [congruence|simpl; lia]).
  destruct es as [|e0 es'].
  { right. exists IndexError. intros xs. unfold compute_accumulated_effect. rewrite Dh. unfold bind at 1. rewrite V. unfold bind at 1. cbv zeta.
    rewrite (take_map _ 0) by (intros x _; simpl; unfold cumsum; rewrite cumsum_from_length; pose proof (Hh x); lia).
    unfold bind at 1. rewrite (getn_ok l 0 0) by lia. unfold bind at 1.
    rewrite (take_map _ 0) by (intros x _; cbn [length]; unfold init_; rewrite app_length, removelast_length; simpl; pose proof (Hh x); lia).
    reflexivity. }
  left. set (es := e0 :: es') in *.
  exists (fun x => nth (h x) (0 :: 0 :: cumsum prod) 0 +
     (let d := x - nth (h x) (l@0 :: init_ l ++ [BIG_M]) 0 in
      let d' := if d <? 0 then 0 else d in if sq then d' * d' else d') *
     nth (h x) (0 :: es ++ [es@(length es - 1)]) 0).
  intros xs. unfold compute_accumulated_effect. rewrite Dh. unfold bind at 1. rewrite V. unfold bind at 1. cbv zeta.
  rewrite (take_map _ 0) by (intros x _; simpl; unfold cumsum; rewrite cumsum_from_length; pose proof (Hh x); lia).
  unfold bind at 1. rewrite (getn_ok l 0 0) by lia. unfold bind at 1.
  rewrite (take_map _ 0) by (intros x _; cbn [length]; unfold init_; rewrite app_length, removelast_length; simpl; pose proof (Hh x); lia).
  unfold bind at 1. rewrite (getz_last es 0) by discriminate. unfold bind at 1.
  rewrite (take_map _ 0) by (intros x _; cbn [length]; rewrite app_length; simpl length at 2; pose proof (Hh x); lia).
  unfold bind at 1. f_equal. rewrite combine_map_r, map_map. 
  destruct sq; rewrite ?map_map; rewrite combine_self_map, combine_self_map, map_map; apply map_ext; intros x; reflexivity.
Qed.

(** ** compute_ale_params: shape of the result *)
Definition from_fit (p : ale_params) : Prop := exists xs es l, compute_ale_params xs es l = Ok p.

Lemma bincount_w_length idx w n r : bincount_w idx w n = Ok r -> (n <= length r)%nat /\ length r = bincount_len idx n.
Proof.
  unfold bincount_w. destruct (negb _); [discriminate|]. destruct (existsb _ _); [discriminate|].
  intros H; inversion H. rewrite map_length, seq_length. split; [unfold bincount_len; lia|reflexivity].
Qed.
Lemma bincount_length idx n r : bincount idx n = Ok r -> length r = bincount_len idx n.
Proof.
  unfold bincount. destruct (existsb _ _); [discriminate|]. intros H; inversion H. now rewrite map_length, seq_length.
Qed.
Lemma divide_where_length cond a n : length a = length n -> length (divide_where cond a n) = length a.
Proof. intros H. unfold divide_where. rewrite map_length, combine_length. lia. Qed.

Lemma ale_params_shape xs es l p : compute_ale_params xs es l = Ok p ->
  l <> [] /\ ap_limits p = l /\ ap_dx p = diffs l /\
  (length l - 1 <= length (ap_effect p))%nat /\ (length l - 1 <= length (ap_var p))%nat /\ (length l - 1 <= length (ap_estvar p))%nat.
Proof.
  unfold compute_ale_params. cbv zeta. intros H.
  apply bind_ok in H as ([be ppb] & HB & H). apply bind_ok in H as ([bv bev] & HV & H).
  apply bind_ok in H as (e & He & H). apply bind_ok in H as (v & Hv & H). apply bind_ok in H as (w & Hw & H).
  inversion H; subst; clear H. cbn [ap_limits ap_dx ap_effect ap_var ap_estvar].
  apply fill_nans_length in He, Hv, Hw.
  unfold compute_bin_effect in HB. apply bind_ok in HB as (idx & HI & HB). cbv zeta in HB.
  apply bind_ok in HB as (ag & HA & HB). apply bind_ok in HB as (pp & HP & HB). inversion HB; subst; clear HB.
  unfold compute_bin_variance in HV. apply bind_ok in HV as (idx' & HI' & HV). cbv zeta in HV.
  apply bind_ok in HV as (mm & _ & HV). apply bind_ok in HV as (vp & _ & HV).
  apply bind_ok in HV as (ag' & HA' & HV). apply bind_ok in HV as (pp' & HP' & HV). inversion HV; subst; clear HV.
  apply bincount_w_length in HA as [HA1 HA2], HA' as [HA1' HA2']. apply bincount_length in HP, HP'.
  rewrite divide_where_length in He by congruence.
  rewrite divide_where_length in Hv by congruence.
  rewrite divide_where_length in Hw by (rewrite divide_where_length; congruence).
  rewrite divide_where_length in Hw by congruence.
  assert (l <> []). { unfold bin_indices in HI. intros ->. discriminate. }
  repeat split; auto; lia.
Qed.

Lemma eval_unnorm_uniform p : from_fit p ->
  (exists g, forall xs, eval_unnorm p xs = Ok (map g xs)) \/ (exists e, forall xs, eval_unnorm p xs = Raise e).
Proof.
  intros (xs & es & l & H).
  destruct (ale_params_shape _ _ _ _ H) as (Hl & E1 & E2 & L1 & L2 & L3).
  unfold eval_unnorm. rewrite E1, E2. apply acc_uniform; auto. rewrite diffs_length. lia.
Qed.
Lemma eval_heter_uniform rt p : from_fit p ->
  (exists g, forall xs, eval_heter rt p xs = Ok (map g xs)) \/ (exists e, forall xs, eval_heter rt p xs = Raise e).
Proof.
  intros (xs & es & l & H).
  destruct (ale_params_shape _ _ _ _ H) as (Hl & E1 & E2 & L1 & L2 & L3).
  unfold eval_heter. rewrite E1, E2. apply acc_uniform; auto; rewrite ?map_length; [lia|]. rewrite diffs_length. lia.
Qed.

(** ** The object *)
Section Obj.
Variable c : config.

Lemma find_fit_from_fit st f m st' p : fit_feature c st f m = (st', Ok p) -> from_fit p.
Proof.
  unfold fit_feature. destruct (c_kind c) as [|jac].
  - intros H. inversion H as [[E1 E]]. clear H E1. unfold ale_fit_feature in E.
    apply bind_ok in E as (? & _ & E). apply bind_ok in E as (lo & _ & E). apply bind_ok in E as (hi & _ & E).
    cbv zeta in E. apply bind_ok in E as (m' & _ & E). apply bind_ok in E as (r & _ & E). destruct r as [|l]; [discriminate|].
    destruct (compute_local_effects _ _ _ _) as [l' effs]. apply bind_ok in E as (es & _ & E). eexists; eauto.
  - destruct (match st_eff st with Some e => Ok e | None => compile c jac end) as [E|e]; intros H; inversion H as [[E1 H']].
    clear H E1. unfold rhale_fit_feature in H'.
    apply bind_ok in H' as (? & _ & H'). apply bind_ok in H' as (lo & _ & H'). apply bind_ok in H' as (hi & _ & H').
    cbv zeta in H'. apply bind_ok in H' as (m' & _ & H'). apply bind_ok in H' as (r & _ & H'). destruct r as [|l]; [discriminate|].
    eexists; eauto.
Qed.

Lemma fit_feature_limits st f m st' p : fit_feature c st f m = (st', Ok p) ->
  (f < dim (c_data c))%nat /\ (f < length (c_mins c))%nat /\ (f < length (c_maxs c))%nat.
Proof.
  assert (G : forall a b, getcol (c_data c) f = Ok a -> getn (c_mins c) f = Ok b -> forall d, getn (c_maxs c) f = Ok d ->
    (f < dim (c_data c))%nat /\ (f < length (c_mins c))%nat /\ (f < length (c_maxs c))%nat).
  { intros a b H1 H2 d H3. unfold getcol in H1. destruct (Nat.ltb_spec f (dim (c_data c))); [|discriminate].
    split; [assumption|]. split; [apply (getn_inv _ _ _ 0) in H2; tauto|apply (getn_inv _ _ _ 0) in H3; tauto]. }
  unfold fit_feature. destruct (c_kind c) as [|jac].
  - intros H. inversion H as [[E1 E]]. clear H E1. unfold ale_fit_feature in E.
    apply bind_ok in E as (? & A1 & E). apply bind_ok in E as (lo & A2 & E). apply bind_ok in E as (hi & A3 & E). eauto.
  - destruct (match st_eff st with Some e => Ok e | None => compile c jac end) as [E|e]; intros H; inversion H as [[E1 H']].
    clear H E1. unfold rhale_fit_feature in H'.
    apply bind_ok in H' as (? & A1 & H'). apply bind_ok in H' as (lo & A2 & H'). apply bind_ok in H' as (hi & A3 & H'). eauto.
Qed.

Lemma fit_feature_fields st f m : st_fe (fst (fit_feature c st f m)) = st_fe st /\
  st_args (fst (fit_feature c st f m)) = st_args st /\ st_fitted (fst (fit_feature c st f m)) = st_fitted st.
Proof.
  unfold fit_feature. destruct (c_kind c) as [|jac]; [auto|].
  destruct (match st_eff st with Some e => Ok e | None => compile c jac end); auto.
Qed.

(** The normalisation constant in terms of the curve [g]. *)
Definition lo_of (f : nat) : Qc := (c_mins c)@f.
Definition hi_of (f : nat) : Qc := (c_maxs c)@f.
Definition center_grid (f : nat) : list Qc := midpoints (linspace (lo_of f) (hi_of f) 100).
Definition shift_of (f : nat) (ce : cent) (g : Qc -> Qc) : Qc :=
  match ce with NoCent => 0 | ZeroStart => g (lo_of f) | ZeroIntegral => mean (map g (center_grid f)) end.

Lemma center_grid_nonempty f : center_grid f <> [].
Proof. unfold center_grid. intros E. apply (f_equal (@length Qc)) in E. rewrite midpoints_length, linspace_length in E. discriminate. Qed.

Lemma norm_const_ok p f ce g : (f < length (c_mins c))%nat -> (f < length (c_maxs c))%nat -> ce <> NoCent ->
  (forall xs, eval_unnorm p xs = Ok (map g xs)) -> compute_norm_const c p f ce = Ok (shift_of f ce g).
Proof.
  intros H1 H2 Hc Hg. unfold compute_norm_const. destruct ce; [congruence| |].
  - rewrite (getn_ok _ _ 0) by exact H1. unfold bind at 1. rewrite Hg. reflexivity.
  - rewrite (getn_ok _ _ 0) by exact H1. unfold bind at 1. rewrite (getn_ok _ _ 0) by exact H2. unfold bind at 1.
    rewrite Hg. unfold bind at 1. rewrite np_mean_some; [reflexivity|].
    intros E. apply map_eq_nil in E. now apply (center_grid_nonempty f).
Qed.
Lemma norm_const_raise p f ce e : (f < length (c_mins c))%nat -> (f < length (c_maxs c))%nat -> ce <> NoCent ->
  (forall xs, eval_unnorm p xs = Raise e) -> compute_norm_const c p f ce = Raise e.
Proof.
  intros H1 H2 Hc Hg. unfold compute_norm_const. destruct ce; [congruence| |];
  rewrite (getn_ok _ _ 0) by exact H1; unfold bind at 1; rewrite ?(getn_ok _ _ 0) by exact H2; unfold bind at 1; rewrite ?Hg; reflexivity.
Qed.

(** *** Invariant of every history, whatever the binning methods *)
Definition inv (st : state) : Prop := forall f,
  (forall p nc, st_fe st f = Some (p, nc) -> from_fit p /\ (f < length (c_mins c))%nat /\ (f < length (c_maxs c))%nat) /\
  (st_fitted st f = true -> st_args st f <> None) /\
  (forall p z ce, st_fe st f = Some (p, Some z) -> st_args st f = Some ce -> ce <> NoCent -> compute_norm_const c p f ce = Ok z).

Lemma inv_fresh E : inv (fresh E).
Proof. intros f. repeat split; simpl in *; try discriminate; intros H; discriminate H. Qed.

Lemma upd_same {A} (g : nat -> A) f v : upd g f v f = v. Proof. unfold upd. now rewrite Nat.eqb_refl. Qed.
Lemma upd_other {A} (g : nat -> A) f v k : k <> f -> upd g f v k = g k.
Proof. intros H. unfold upd. destruct (Nat.eqb_spec k f); [contradiction|reflexivity]. Qed.

Lemma fit_one_inv st f m ce : inv st -> inv (fst (fit_one c st f m ce)).
Proof.
  intros I. unfold fit_one. pose proof (fit_feature_fields st f m) as (F1 & F2 & F3).
  destruct (fit_feature c st f m) as [st1 [p|e]] eqn:E; cbn [fst] in *.
  2:{ intros k. rewrite F1, F2, F3. apply I. }
  pose proof (find_fit_from_fit _ _ _ _ _ E) as P. destruct (fit_feature_limits _ _ _ _ _ E) as (D & L1 & L2).
  assert (G : forall nc, (forall z, nc = Some z -> ce <> NoCent -> compute_norm_const c p f ce = Ok z) ->
            inv (set_fitted (set_fe (set_fe st1 f (p, None)) f (p, nc)) f ce)).
  { intros nc Hnc k. cbn [st_fe st_args st_fitted set_fitted set_fe]. destruct (Nat.eq_dec k f) as [->|N].
    - rewrite !upd_same. split; [intros p' nc' Q; inversion Q; subst; auto|]. split; [congruence|].
      intros p' z ce' Q1 Q2 Q3. inversion Q1; inversion Q2; subst. auto.
    - rewrite !upd_other by exact N. rewrite F1, F2, F3. apply I. }
  assert (G2 : inv (set_fe st1 f (p, None))).
  { intros k. cbn [st_fe st_args st_fitted set_fe]. rewrite F2, F3. destruct (Nat.eq_dec k f) as [->|N].
    - rewrite !upd_same. split; [intros p' nc' Q; inversion Q; subst; auto|]. split; [apply I|]. discriminate.
    - rewrite upd_other by exact N. rewrite F1. apply I. }
  destruct ce.
  - apply G. congruence.
  - destruct (compute_norm_const c p f ZeroStart) eqn:N; [apply G; congruence|exact G2].
  - destruct (compute_norm_const c p f ZeroIntegral) eqn:N; [apply G; congruence|exact G2].
Qed.
Lemma fit_loop_inv fs : forall st m ce, inv st -> inv (fst (fit_loop c st fs m ce)).
Proof.
  induction fs as [|f fs IH]; intros st m ce I; [exact I|]. simpl. pose proof (fit_one_inv st f m ce I) as I1.
  destruct (fit_one c st f m ce) as [st' [u|e]]; cbn [fst] in *; [now apply IH|exact I1].
Qed.
Lemma fit_inv st fs m cv : inv st -> inv (fst (fit c st fs m cv)).
Proof.
  intros I. unfold fit. destruct (method_allowed c m); [|exact I]. destruct (prep_cent cv); [now apply fit_loop_inv|exact I].
Qed.
Lemma eval_inv rt st f xs h cv : inv st -> inv (fst (eval c rt st f xs h cv)).
Proof.
  intros I. unfold eval. destruct (prep_cent cv) as [ce|]; [|exact I]. destruct (refit c st f ce) as [[|]|]; try exact I.
  pose proof (fit_inv st [f] (default_method c) cv I) as I1. destruct (fit c st [f] (default_method c) cv) as [st' [u|e]]; exact I1.
Qed.
Lemma run_inv rt ks : forall st, inv st -> inv (run c rt st ks).
Proof.
  induction ks as [|k ks IH]; intros st I; [exact I|]. simpl. apply IH. destruct k; simpl; [now apply fit_inv|now apply eval_inv].
Qed.

(** what a successful fit of one feature leaves behind *)
Lemma fit_one_ok st f m ce st' u : fit_one c st f m ce = (st', Ok u) ->
  exists st1 p z, fit_feature c st f m = (st1, Ok p) /\ st_fe st' f = Some (p, Some z) /\ st_args st' f = Some ce /\
    st_fitted st' f = true /\ (ce <> NoCent -> compute_norm_const c p f ce = Ok z).
Proof.
  unfold fit_one. destruct (fit_feature c st f m) as [st1 [p|e]]; [|discriminate]. intros H.
  assert (G : forall z, exists st1' p0 z0, (st1, Ok p) = (st1', Ok p0) /\
     st_fe (set_fitted (set_fe (set_fe st1 f (p, None)) f (p, Some z)) f ce) f = Some (p0, Some z0) /\ st_args (set_fitted (set_fe (set_fe st1 f (p, None)) f (p, Some z)) f ce) f = Some ce /\
    st_fitted (set_fitted (set_fe (set_fe st1 f (p, None)) f (p, Some z)) f ce) f = true /\ z0 = z).
  { intros z. exists st1, p, z. cbn [st_fe st_args st_fitted set_fitted set_fe]. rewrite !upd_same. auto. }
  destruct ce.
  - inversion H; subst. destruct (G EMPTY_SYMBOL) as (a & p0 & z0 & Q & R1 & R2 & R3 & R4). exists a, p0, z0. rewrite Q. repeat split; auto; congruence.
  - destruct (compute_norm_const c p f ZeroStart) as [z|] eqn:N; [|discriminate]. inversion H; subst.
    destruct (G z) as (a & p0 & z0 & Q & R1 & R2 & R3 & R4). exists a, p0, z0. rewrite Q. repeat split; auto. inversion Q; subst; auto.
  - destruct (compute_norm_const c p f ZeroIntegral) as [z|] eqn:N; [|discriminate]. inversion H; subst.
    destruct (G z) as (a & p0 & z0 & Q & R1 & R2 & R3 & R4). exists a, p0, z0. rewrite Q. repeat split; auto. inversion Q; subst; auto.
Qed.

Lemma eval_fitted_ok rt st f xs het ce y h : eval_fitted c rt st f xs het ce = Ok (y, h) ->
  exists p nc, st_fe st f = Some (p, nc) /\ lo_of f < hi_of f /\
    (exists y0, eval_unnorm p xs = Ok y0 /\ (ce = NoCent -> y = y0) /\ (ce <> NoCent -> exists z, nc = Some z /\ y = map (fun v => v - z) y0)) /\
    (het = true -> exists h0, eval_heter rt p xs = Ok h0 /\ h = Some h0) /\ (het = false -> h = None).
Proof.
  unfold eval_fitted. intros H. apply bind_ok in H as (lo & H1 & H). apply bind_ok in H as (hi & H2 & H).
  apply bind_ok in H as (u & H3 & H). destruct (st_fe st f) as [[p nc]|]; [|discriminate].
  apply bind_ok in H as (y0 & H4 & H). apply bind_ok in H as (h0 & H5 & H). apply bind_ok in H as (y1 & H6 & H). inversion H; subst; clear H.
  exists p, nc. split; [reflexivity|]. split.
  { unfold assert_ in H3. destruct (Qcltb_spec lo hi); [|discriminate].
    apply (getn_inv _ _ _ 0) in H1 as [_ H1]. apply (getn_inv _ _ _ 0) in H2 as [_ H2]. unfold lo_of, hi_of. now rewrite H1, H2. }
  split.
  - exists y0. split; [exact H4|]. destruct ce.
    + inversion H6. split; [reflexivity|congruence].
    + split; [congruence|]. intros _. destruct nc as [z|]; [|discriminate]. inversion H6. eauto.
    + split; [congruence|]. intros _. destruct nc as [z|]; [|discriminate]. inversion H6. eauto.
  - split; intros ->.
    + unfold rmap in H5. apply bind_ok in H5 as (hh & H5 & E). inversion E. eauto.
    + now inversion H5.
Qed.

(** Everything there is to know about a successful evaluation. *)
Lemma eval_ok rt st f xs het cv st' y h : inv st -> eval c rt st f xs het cv = (st', Ok (y, h)) ->
  exists ce p nc g, prep_cent cv = Ok ce /\ st_fe st' f = Some (p, nc) /\ from_fit p /\ st_fitted st' f = true /\
    (f < length (c_mins c))%nat /\ (f < length (c_maxs c))%nat /\
    (f < dim (c_data c))%nat /\ lo_of f < hi_of f /\
    (forall zs, eval_unnorm p zs = Ok (map g zs)) /\
    y = map (fun x => g x - shift_of f ce g) xs /\
    (het = true -> exists gh, (forall zs, eval_heter rt p zs = Ok (map gh zs)) /\ h = Some (map gh xs)) /\ (het = false -> h = None) /\
    (ce <> NoCent -> st_args st' f = Some ce /\ nc = Some (shift_of f ce g)).
Proof.
  intros I H. unfold eval in H. destruct (prep_cent cv) as [ce|e] eqn:PC; [|discriminate].
  assert (Q : inv st' /\ st_fitted st' f = true /\ (ce <> NoCent -> st_args st' f = Some ce) /\ (f < dim (c_data c))%nat /\ eval_fitted c rt st' f xs het ce = Ok (y, h)).
  { destruct (refit c st f ce) as [[|]|] eqn:R; [| |discriminate].
    - pose proof (fit_inv st [f] (default_method c) cv I) as I1.
      destruct (fit c st [f] (default_method c) cv) as [st1 [u|e]] eqn:F; [|discriminate]. injection H as -> HE. cbn [fst] in I1.
      split; [exact I1|]. unfold fit in F. destruct (method_allowed c (default_method c)); [|discriminate]. rewrite PC in F.
      simpl in F. destruct (fit_one c st f (default_method c) ce) as [st2 [u2|e2]] eqn:F1; [|discriminate]. injection F as -> _.
      apply fit_one_ok in F1 as (st3 & p & z & A & B & C & D & E).
      split; [exact D|]. split; [auto|]. split; [apply fit_feature_limits in A; tauto|assumption].
    - injection H as -> HE. split; [exact I|]. unfold refit in R. destruct (Nat.ltb_spec f (dim (c_data c))); [|discriminate].
      destruct (st_fitted st' f) eqn:Fi; [|discriminate]. simpl in R. split; [reflexivity|].
      split; [|auto]. intros Hce. destruct ce; [congruence| |];
      (destruct (st_args st' f) as [a|]; [|discriminate]; inversion R; destruct a; simpl in *; congruence). }
  clear H I. destruct Q as (I & Fi & A & D & H). apply eval_fitted_ok in H as (p & nc & F & Lo & (y0 & U & Y1 & Y2) & H1 & H2).
  destruct (I f) as (I1 & _ & I2). destruct (I1 p nc F) as (P & L1 & L2).
  destruct (eval_unnorm_uniform p P) as [(g & Hg)|(e & Hg)]; [|rewrite Hg in U; discriminate].
  exists ce, p, nc, g. rewrite Hg in U. inversion U; subst y0; clear U.
  assert (K : ce <> NoCent -> nc = Some (shift_of f ce g)).
  { intros Hce. destruct (Y2 Hce) as (z & -> & _). pose proof (I2 p z ce F (A Hce) Hce) as N.
    rewrite (norm_const_ok p f ce g L1 L2 Hce Hg) in N. now inversion N. }
  repeat (split; [solve [auto]|]). split.
  - destruct ce.
    + rewrite (Y1 eq_refl). apply map_ext. intros x. cbn [shift_of]. ring.
    + destruct (Y2 ltac:(discriminate)) as (z & Ez & ->). rewrite K in Ez by discriminate. injection Ez as <-. now rewrite map_map.
    + destruct (Y2 ltac:(discriminate)) as (z & Ez & ->). rewrite K in Ez by discriminate. injection Ez as <-. now rewrite map_map.
  - split; [|split; [exact H2|auto]]. intros E. destruct (H1 E) as (h0 & U & ->).
    destruct (eval_heter_uniform rt p P) as [(gh & Hh)|(e & Hh)]; [|rewrite Hh in U; discriminate].
    exists gh. split; [exact Hh|]. rewrite Hh in U. now inversion U.
Qed.

(** Evaluating again with the same centering changes nothing. *)
Lemma eval_again rt st f zs het p nc g ce cv : prep_cent cv = Ok ce -> st_fitted st f = true -> (f < dim (c_data c))%nat ->
  (f < length (c_mins c))%nat -> (f < length (c_maxs c))%nat -> lo_of f < hi_of f ->
  st_fe st f = Some (p, nc) -> (forall zs, eval_unnorm p zs = Ok (map g zs)) ->
  (het = true -> exists gh, forall zs, eval_heter rt p zs = Ok (map gh zs)) ->
  (ce <> NoCent -> st_args st f = Some ce /\ nc = Some (shift_of f ce g)) ->
  exists h, eval c rt st f zs het cv = (st, Ok (map (fun x => g x - shift_of f ce g) zs, h)) /\
     (het = true -> exists hh, eval_heter rt p zs = Ok hh /\ h = Some hh) /\ (het = false -> h = None).
Proof.
  intros PC Fi D L1 L2 Lo F Hg Hh Hce. unfold eval. rewrite PC.
  assert (R : refit c st f ce = Ok false).
  { unfold refit. destruct (Nat.ltb_spec f (dim (c_data c))); [|lia]. rewrite Fi. cbn [negb].
    destruct ce; [reflexivity| |]; (destruct (Hce ltac:(discriminate)) as (-> & _); reflexivity). }
  rewrite R. unfold eval_fitted. rewrite (getn_ok _ _ 0) by exact L1. unfold bind at 1. rewrite (getn_ok _ _ 0) by exact L2. unfold bind at 1.
  unfold lo_of, hi_of in Lo. unfold assert_. destruct (Qcltb_spec (c_mins c)@f (c_maxs c)@f); [|qlra]. unfold bind at 1. rewrite F, Hg.
  unfold bind at 1.
  assert (Y : match ce with NoCent => Ok (map g zs) | _ => match nc with None => Raise KeyError | Some z => Ok (map (fun v => v - z) (map g zs)) end end
     = Ok (map (fun x => g x - shift_of f ce g) zs)).
  { destruct ce.
    - f_equal. apply map_ext. intros x. cbn [shift_of]. ring.
    - destruct (Hce ltac:(discriminate)) as (_ & ->). now rewrite map_map.
    - destruct (Hce ltac:(discriminate)) as (_ & ->). now rewrite map_map. }
  destruct het.
  - destruct (Hh eq_refl) as (gh & Hgh). rewrite Hgh. unfold rmap. unfold bind at 2. unfold bind at 1. rewrite Y. unfold bind at 1.
    eexists. split; [reflexivity|]. split; [eauto|discriminate].
  - unfold bind at 1. rewrite Y. unfold bind at 1. eexists. split; [reflexivity|]. split; [discriminate|auto].
Qed.

(** Uncentered evaluation in a fitted state. *)
Lemma eval_uncentered rt st f zs het p nc g : st_fitted st f = true -> (f < dim (c_data c))%nat ->
  (f < length (c_mins c))%nat -> (f < length (c_maxs c))%nat -> lo_of f < hi_of f ->
  st_fe st f = Some (p, nc) -> (forall zs, eval_unnorm p zs = Ok (map g zs)) ->
  (het = true -> exists gh, forall zs, eval_heter rt p zs = Ok (map gh zs)) ->
  exists h, eval c rt st f zs het (PyBool false) = (st, Ok (map g zs, h)) /\
     (het = true -> exists hh, eval_heter rt p zs = Ok hh /\ h = Some hh) /\ (het = false -> h = None).
Proof.
  intros Fi D L1 L2 Lo F Hg Hh. unfold eval. change (prep_cent (PyBool false)) with (Ok NoCent). cbv iota.
  unfold refit. destruct (Nat.ltb_spec f (dim (c_data c))); [|lia]. rewrite Fi. cbn [negb].
  unfold eval_fitted. rewrite (getn_ok _ _ 0) by exact L1. unfold bind at 1. rewrite (getn_ok _ _ 0) by exact L2. unfold bind at 1.
  unfold lo_of, hi_of in Lo. unfold assert_. destruct (Qcltb_spec (c_mins c)@f (c_maxs c)@f); [|qlra]. unfold bind at 1. rewrite F, Hg.
  unfold bind at 1. destruct het.
  - destruct (Hh eq_refl) as (gh & Hgh). rewrite Hgh. simpl. eexists. split; [reflexivity|]. split; [eauto|discriminate].
  - simpl. eexists. split; [reflexivity|]. split; [discriminate|auto].
Qed.
End Obj.
