(** From the fitted parameters to the definition of ALESpec.v (C71-C76). *)
From Verif Require Import Base Numpy Spec ALESpec NumpyFacts Utils UtilsProofs FillProofs AccProofs LocalProofs ParamsProofs
  Helpers Integrate HelpersProofs Binning BinProofs GreedyProofs DPProofs LimitsProofs GlobalALE ALEState ALEHist ALEFit ALEProps ALESuccess ALECurves ALESpecFacts.
From Verif Require VisProofs.
Open Scope Qc_scope.
Open Scope list_scope.

Lemma fill_filled x y : fill_nans x = Ok y -> filled x y.
Proof.
  intros H. split; [now apply fill_nans_length|]. split.
  { destruct (valid_points 0 x) as [|p ps] eqn:V.
    - unfold fill_nans in H. rewrite V in H. discriminate.
    - destruct (existsb (fun o => match o with Some _ => true | None => false end) x) eqn:E.
      + apply existsb_exists in E as (o & Ho & Eo). apply (In_nth _ _ None) in Ho as (j & _ & Hj). destruct o as [v|]; [|discriminate]. eauto.
      + exfalso. assert (Q : forall j, nth j x None = None).
        { intros j. destruct (Nat.lt_ge_cases j (length x)) as [L|L]; [|now apply nth_overflow].
          destruct (nth j x None) as [v|] eqn:Ej; [|reflexivity]. exfalso. rewrite <- not_true_iff_false in E. apply E.
          apply existsb_exists. exists (Some v). split; [rewrite <- Ej; now apply nth_In|reflexivity]. }
        apply fill_nans_raise_iff in Q. congruence. }
  split; [intros; eapply fill_nans_keeps; eauto|]. split; [intros; eapply fill_nans_gap; eauto|].
  split; [intros; eapply fill_nans_gap_right; eauto|]. intros; eapply fill_nans_gap_left; eauto.
Qed.

Lemma mean_of_eq m : mean_or_nan m = mean_of m. Proof. destruct m; reflexivity. Qed.
Lemma variance_of_eq m : var_or_nan m = variance_of m. Proof. destruct m as [|a [|b m]]; reflexivity. Qed.

(** the fitted parameters are the means and variances of the bins *)
Lemma usable_definition xs es l p : usable xs es l -> compute_ale_params xs es l = Ok p ->
  ap_limits p = l /\ bin_means l (members l xs es) (ap_effect p) /\ bin_variances l (members l xs es) (ap_var p).
Proof.
  intros (LE & L2 & I & C) H. rewrite (ale_params_eq xs es l LE L2 I C) in H.
  apply bind_ok in H as (e & He & H). apply bind_ok in H as (v & Hv & H). apply bind_ok in H as (w & _ & H). injection H as <-.
  cbn [ap_limits ap_effect ap_var]. split; [reflexivity|]. unfold bin_means, bin_variances. split.
  - apply fill_filled. exact He.
  - apply fill_filled. rewrite <- Hv. f_equal. apply map_ext. intros k. symmetry. apply variance_of_eq.
Qed.

Lemma members_map l (Z : Mat) f (s : list Qc -> Qc) k : members l (col Z f) (map s Z) k = map s (bin_of l f Z k).
Proof.
  unfold members, col, bin_of. rewrite combine_self_map. induction Z as [|r Z IH]; [reflexivity|]. simpl.
  destruct (in_bin l k r@f); simpl; [f_equal|]; exact IH.
Qed.

Definition cent_of (ce : cent) : centering := match ce with NoCent => Uncentered | ZeroStart => FromStart | ZeroIntegral => FromMean end.
Lemma prep_cent_requested cv ce : prep_cent cv = Ok ce -> requested cv (cent_of ce).
Proof.
  unfold prep_cent, requested. destruct cv as [[|]|s| | |]; simpl; intros H; try discriminate.
  - injection H as <-. right; right. auto.
  - injection H as <-. auto.
  - destruct (String.eqb_spec s "zero_start") as [->|N].
    + simpl in H. injection H as <-. auto.
    + destruct (String.eqb_spec s "zero_integral") as [->|N2]; simpl in H; [|discriminate]. injection H as <-. auto.
Qed.

Lemma center_grid_middle c f : center_grid c f = map (middle (lo_of c f) (hi_of c f)) (seq 0 99).
Proof.
  unfold center_grid. apply nth_ext with (d := 0) (d' := 0).
  - rewrite midpoints_length, linspace_length, map_length, seq_length. reflexivity.
  - rewrite midpoints_length, linspace_length. intros k Hk. rewrite midpoints_nth by (rewrite linspace_length; lia).
    rewrite (nth_seq_map _ 99) by lia. unfold middle. change 100%nat with (99 + 1)%nat.
    rewrite !linspace_grid by lia. set (u := grid _ _ _ _). set (v := grid _ _ _ (S k)). clearbody u v.
    unfold Qcdiv. replace (/ Q2Qc 2) with (Q2Qc (1 # 2)) by (apply Qc_is_canon; reflexivity). ring.
Qed.
Lemma shift_offset c f ce (g g' : Qc -> Qc) : lo_of c f < hi_of c f -> (forall x, lo_of c f <= x <= hi_of c f -> g x = g' x) ->
  shift_of c f ce g = offset (cent_of ce) (lo_of c f) (hi_of c f) g'.
Proof.
  intros LH E. destruct ce; cbn [shift_of offset cent_of]; [reflexivity|apply E; split; qlra|]. rewrite center_grid_middle, map_map. f_equal. apply map_ext_in.
  intros i Hi. apply E. apply in_seq in Hi. unfold middle, grid. set (w := (hi_of c f - lo_of c f) / qn 99).
  assert (W : 0 < w) by (apply Qcdiv_lt_0; [qlra|apply qn_pos; lia]).
  assert (EH : hi_of c f = lo_of c f + qn 99 * w) by (unfold w; field; apply qn_neq0; lia).
  assert (A : 0 <= qn i) by (apply qn_nonneg). assert (B : qn i <= qn 98) by (apply qn_le; lia).
  assert (B' : qn 98 + 1 = qn 99) by (rewrite <- qn_S; reflexivity).
  rewrite EH. rewrite qn_S. set (q := qn i) in *. set (n98 := qn 98) in *. set (n99 := qn 99) in *. clearbody q n98 n99 w. clear - A B B' W. split; qnra.
Qed.

Lemma widened_add_last l l' : (2 <= length l)%nat -> l' = add_last l EPS -> widened l l'.
Proof.
  intros H2 ->. unfold widened. rewrite add_last_length. split; [reflexivity|]. split.
  - intros i Hi. rewrite add_last_nth by lia. destruct (Nat.eqb_spec i (length l - 1)); [lia|reflexivity].
  - rewrite add_last_nth by lia. now rewrite Nat.eqb_refl.
Qed.

Lemma fixed_find_binning b n mp cl l : (1 <= n)%nat -> fixed_find b n mp cl = Ok (LArr l) -> fixed_binning n cl (b_xs b) (b_lo b) (b_hi b) l.
Proof.
  intros Hn H. exists (unique (b_xs b)). split; [split; [apply unique_increasing|intros x; apply unique_in]|].
  destruct (fixed_find_inv b n mp cl l H) as (_ & [(L & H2 & E)|(L & ->)]); [left; split; [lia|]|right; split; [exact L|]].
  - destruct (cat_limits_ok (unique (b_xs b)) H2) as (l2 & E2 & A & B & C & D). rewrite E in E2. injection E2 as <-.
    split; [exact A|]. split; [exact B|]. split; [|exact D]. intros k Hk. rewrite C by exact Hk.
    set (u := (unique (b_xs b))@k). set (v := (unique (b_xs b))@(S k)). clearbody u v. replace (Q2Qc 2) with (1 + 1) by (apply Qc_is_canon; reflexivity). field. discriminate.
  - split; [rewrite linspace_length; lia|]. intros i Hi. now apply linspace_grid.
Qed.

(** *** ALE *)
Lemma pfit_ale_definition c g E0 f m p : c_kind c = KALE -> c_model c = map g -> bins_pos m -> pfit c E0 f m = Ok p ->
  lo_of c f < hi_of c f ->
  exists n mp cl l l', ale_method m = Some (MFixed n mp cl) /\ (1 <= n)%nat /\ fixed_binning n cl (fit_xs c f) (lo_of c f) (hi_of c f) l /\
    widened l l' /\ increasing l' /\ (2 <= length l')%nat /\ (forall x, In x (fit_xs c f) -> covered l' x) /\
    let slopes k := map (slope (dt (c_data c)) g f l' k) (bin_of l' f (rows (kept c (lo_of c f) (hi_of c f) f)) k) in
    bin_means l' slopes (ap_effect p) /\ bin_variances l' slopes (ap_var p) /\
    (forall zs, eval_unnorm p zs = Ok (map (acc_curve l' (ap_effect p)) zs)) /\
    (forall rt zs, eval_heter rt p zs = Ok (map (acc_curve l' (map rt (ap_var p))) zs)).
Proof.
  intros K Hm BP H LH.
  pose proof H as H0. unfold pfit in H0. destruct (fit_feature c (fresh E0) f m) as [st r] eqn:FF. cbn [snd] in H0. subst r.
  destruct (fit_feature_limits c _ f m st p FF) as (Hf & _). unfold fit_feature in FF. rewrite K in FF. injection FF as _ FF.
  destruct (ale_fit_ok c f m p BP LH FF) as (n & mp & cl & l & es & MM & Hn & F & U0 & CL & U & P).
  pose proof U0 as (LE & L2 & I & C). exists n, mp, cl, l, (add_last l EPS). split; [exact MM|]. split; [exact Hn|].
  split; [exact (fixed_find_binning _ n mp cl l Hn F)|]. split; [now apply widened_add_last|].
  pose proof U as (LE' & L2' & I' & C'). split; [exact I'|]. split; [exact L2'|]. split; [exact C'|]. cbv zeta.
  set (Z := rows (kept c (lo_of c f) (hi_of c f) f)) in *.
  assert (Hne : Z <> []).
  { intros E. pose proof (ale_params_two _ _ _ LE' L2' I' C' p P) as (k & _ & Q). unfold fit_xs in Q. fold Z in Q. rewrite E in Q. unfold count, col in Q. cbn [map filter length] in Q. lia. }
  assert (CC : forall r, In r Z -> covered l r@f). { intros r Hr. apply C. unfold fit_xs. fold Z. unfold col. apply in_map_iff. eauto. }
  rewrite Hm in CL. rewrite (compute_local_effects_eq (kept c (lo_of c f) (hi_of c f) f) g l f Hf Hne L2 I CC) in CL. cbn [snd] in CL. injection CL as Ees.
  change (dt (kept c (lo_of c f) (hi_of c f) f)) with (dt (c_data c)) in Ees.
  assert (MB : forall k, (k < length (add_last l EPS) - 1)%nat ->
    members (add_last l EPS) (fit_xs c f) es k = map (slope (dt (c_data c)) g f (add_last l EPS) k) (bin_of (add_last l EPS) f Z k)).
  { intros k Hk. rewrite <- Ees. unfold fit_xs. fold Z. rewrite members_map. apply map_ext_in. intros r Hr. unfold bin_of in Hr.
    apply filter_In in Hr as (Hr & Hb). rewrite add_last_length in Hk. rewrite in_bin_add_last in Hb by auto.
    rewrite (bnat_unique l r@f k L2 I (CC r Hr) Hk Hb). reflexivity. }
  destruct (usable_definition _ _ _ p U P) as (El & B1 & B2).
  assert (QE : forall (h : list Qc -> option Qc), map (fun k => h (members (add_last l EPS) (fit_xs c f) es k)) (seq 0 (length (add_last l EPS) - 1)) =
    map (fun k => h (map (slope (dt (c_data c)) g f (add_last l EPS) k) (bin_of (add_last l EPS) f Z k))) (seq 0 (length (add_last l EPS) - 1))).
  { intros h. apply map_ext_in. intros k Hk. apply in_seq in Hk. rewrite MB by lia. reflexivity. }
  split; [unfold bin_means in *; rewrite <- QE; exact B1|]. split; [unfold bin_variances in *; rewrite <- QE; exact B2|].
  split; [intros zs; eapply usable_unnorm; eauto|]. intros rt zs. eapply usable_heter; eauto.
Qed.

(** *** RHALE *)
Lemma kept_effects_pairs c lo hi f E e : kept_effects c lo hi f E = Ok e ->
  let Z := filter (fun q => in_range lo hi f (fst q)) (combine (rows (c_data c)) E) in
  e = map snd Z /\ rows (kept c lo hi f) = map fst Z.
Proof.
  unfold kept_effects. destruct (Nat.eqb_spec (length E) (length (rows (c_data c)))) as [L|]; [|discriminate].
  intros H; injection H as <-. split; [reflexivity|]. unfold kept. cbn [rows].
  revert E L. induction (rows (c_data c)) as [|r rs IH]; intros E L; [reflexivity|]. destruct E as [|e E]; [discriminate|]. simpl.
  destruct (in_range lo hi f r); simpl; [f_equal|]; apply IH; simpl in L; lia.
Qed.
Lemma members_pairs l (Z : list (list Qc * list Qc)) f k :
  members l (col (map fst Z) f) (col (map snd Z) f) k = map (fun q => (snd q)@f) (bin_pairs l f Z k).
Proof.
  unfold members, col, bin_pairs. induction Z as [|q Z IH]; [reflexivity|]. simpl. destruct (in_bin l k (fst q)@f); simpl; [f_equal|]; exact IH.
Qed.
Lemma pfit_rhale_definition c jac E0 E f m p : c_kind c = KRHALE jac -> match E0 with Some e => Ok e | None => compile c jac end = Ok E ->
  bins_pos m -> pfit c E0 f m = Ok p -> lo_of c f < hi_of c f ->
  let Z := filter (fun q => in_range (lo_of c f) (hi_of c f) f (fst q)) (combine (rows (c_data c)) E) in
  exists l, find_limits_b (mkB (col (map fst Z) f) (col (map snd Z) f) (lo_of c f) (hi_of c f)) m = Ok (LArr l) /\
    increasing l /\ (2 <= length l)%nat /\ (forall x, In x (col (map fst Z) f) -> covered l x) /\ length E = length (rows (c_data c)) /\
    let slopes k := map (fun q => (snd q)@f) (bin_pairs l f Z k) in
    bin_means l slopes (ap_effect p) /\ bin_variances l slopes (ap_var p) /\
    (forall zs, eval_unnorm p zs = Ok (map (acc_curve l (ap_effect p)) zs)) /\
    (forall rt zs, eval_heter rt p zs = Ok (map (acc_curve l (map rt (ap_var p))) zs)).
Proof.
  intros K HE BP H LH Z. unfold pfit, fit_feature in H. rewrite K in H. change (st_eff (fresh E0)) with E0 in H. rewrite HE in H. cbn [snd] in H.
  destruct (rhale_fit_ok c E f m p BP LH H) as (e & l & Ke & P & U & F). destruct (kept_effects_pairs _ _ _ _ _ _ Ke) as (Ee & Er). fold Z in Ee, Er.
  unfold fit_xs in *. rewrite Ee, Er in *. exists l. split; [exact F|]. pose proof U as (LE & L2 & I & C). split; [exact I|]. split; [exact L2|]. split; [exact C|].
  split. { unfold kept_effects in Ke. destruct (Nat.eqb_spec (length E) (length (rows (c_data c)))); [assumption|discriminate]. }
  cbv zeta. destruct (usable_definition _ _ _ p U P) as (El & B1 & B2).
  assert (QE : forall (h : list Qc -> option Qc), map (fun k => h (members l (col (map fst Z) f) (col (map snd Z) f) k)) (seq 0 (length l - 1)) =
    map (fun k => h (map (fun q => (snd q)@f) (bin_pairs l f Z k))) (seq 0 (length l - 1))).
  { intros h. apply map_ext_in. intros k Hk. now rewrite members_pairs. }
  split; [unfold bin_means in *; rewrite <- QE; exact B1|]. split; [unfold bin_variances in *; rewrite <- QE; exact B2|].
  split; [intros zs; eapply usable_unnorm; eauto|]. intros rt zs. eapply usable_heter; eauto.
Qed.

(** *** eval after any history *)
Definition used_method (c : config) (ks : list call) (m : method) : Prop := m = default_method c \/ exists fs cv, In (CallFit fs m cv) ks.
Lemma used_methods c ks : Forall (methods_ok bins_pos) ks -> Forall (methods_ok (fun m => bins_pos m /\ used_method c ks m)) ks.
Proof.
  intros F. apply Forall_forall. intros k Hk. rewrite Forall_forall in F. specialize (F k Hk). destruct k as [fs m cv|]; simpl in *; [|exact I].
  split; [exact F|]. right. eauto.
Qed.
(** what eval returns, whenever the curve of the fitted parameters [p] is known *)
Definition drawn (c : config) (rt : Qc -> Qc) (f : nat) (xs : list Qc) (het : bool) (ce : cent) (p : ale_params) (y : list Qc) (h : option (list Qc)) : Prop :=
  forall l be bv, (forall zs, eval_unnorm p zs = Ok (map (acc_curve l be) zs)) -> (forall zs, eval_heter rt p zs = Ok (map (acc_curve l bv) zs)) ->
    hi_of c f <= BIG_M -> (forall x, In x xs -> x <= BIG_M) ->
    y = map (fun x => step_integral l be x - offset (cent_of ce) (lo_of c f) (hi_of c f) (step_integral l be)) xs /\
    h = if het then Some (map (step_integral l bv) xs) else None.
Lemma drawn_ok c rt f xs het ce p g y h : lo_of c f < hi_of c f -> (forall zs, eval_unnorm p zs = Ok (map g zs)) ->
  y = map (fun x => g x - shift_of c f ce g) xs ->
  (het = true -> exists gh, (forall zs, eval_heter rt p zs = Ok (map gh zs)) /\ h = Some (map gh xs)) -> (het = false -> h = None) ->
  drawn c rt f xs het ce p y h.
Proof.
  intros LH Hg Ey HH HN l be bv E1 E2 HB HX.
  assert (G : forall x, x <= BIG_M -> g x = step_integral l be x).
  { intros x Hx. pose proof (Hg [x]) as Q. rewrite E1 in Q. simpl in Q. injection Q as Q. rewrite <- Q. apply acc_curve_inside. auto. }
  split.
  - rewrite Ey. apply map_ext_in. intros x Hx. rewrite G by auto. f_equal. apply shift_offset; [exact LH|].
    intros z Hz. apply G. eapply Qcle_trans; [apply Hz|exact HB].
  - destruct het; [|now apply HN]. destruct (HH eq_refl) as (gh & Hgh & ->). f_equal. apply map_ext_in. intros x Hx.
    pose proof (Hgh [x]) as Q. rewrite E2 in Q. simpl in Q. injection Q as Q. rewrite <- Q. apply acc_curve_inside. auto.
Qed.
Lemma eval_curves c E0 rt ks f xs het cv st' y h : Forall (methods_ok bins_pos) ks ->
  eval c rt (run c rt (fresh E0) ks) f xs het cv = (st', Ok (y, h)) ->
  lo_of c f < hi_of c f /\ (f < dim (c_data c))%nat /\ exists ce m p, prep_cent cv = Ok ce /\ bins_pos m /\ used_method c ks m /\ pfit c E0 f m = Ok p /\
    drawn c rt f xs het ce p y h.
Proof.
  intros F H.
  destruct (eval_after_history c E0 (fun m => bins_pos m /\ used_method c ks m)
    (fun f p => exists m, (bins_pos m /\ used_method c ks m) /\ pfit c E0 f m = Ok p) rt ks f xs het cv st' y h
    (conj (default_bins_pos c) (or_introl eq_refl)) (fun f0 m0 p0 Hm0 Hp0 => ex_intro _ m0 (conj Hm0 Hp0)) (used_methods c ks F) H)
    as (ce & p & nc & g & PC & FE & (m & (BP & UM) & PF) & LH & Hf & Hg & Ey & HH & HN).
  split; [exact LH|]. split; [exact Hf|]. exists ce, m, p. do 4 (split; [assumption|]). eapply drawn_ok; eauto.
Qed.

(** after an explicit fit of the feature, eval with the same centering (or none) uses that fit *)
Lemma run_eff_ok c E0 rt ks : eff_ok c E0 (run c rt (fresh E0) ks).
Proof.
  pose proof (run_pinv c E0 (fun _ => True) (fun _ _ => True) I (fun _ _ _ _ _ => I) rt ks (fresh E0)) as Q.
  apply Q; [|apply pinv_fresh]. apply Forall_forall. intros [fs m cv|] _; exact I.
Qed.
Lemma fit_eval_curves c E0 rt ks f m cv cv' xs het st1 st' y h :
  fit c (run c rt (fresh E0) ks) [f] m cv = (st1, Ok tt) -> cv' = cv \/ cv' = PyBool false ->
  eval c rt st1 f xs het cv' = (st', Ok (y, h)) ->
  lo_of c f < hi_of c f /\ (f < dim (c_data c))%nat /\ exists ce p, prep_cent cv' = Ok ce /\ pfit c E0 f m = Ok p /\ drawn c rt f xs het ce p y h.
Proof.
  intros H Hcv HE. pose proof (run_inv c rt ks (fresh E0) (inv_fresh c E0)) as I0. pose proof (run_eff_ok c E0 rt ks) as EO.
  set (st := run c rt (fresh E0) ks) in *. clearbody st.
  pose proof (fit_inv c st [f] m cv I0) as I1. rewrite H in I1. cbn [fst] in I1.
  assert (ES : fst (eval c rt st1 f xs het cv') = st1 /\ exists p z, st_fe st1 f = Some (p, z) /\ pfit c E0 f m = Ok p).
  { unfold fit in H. destruct (method_allowed c m); [|discriminate]. destruct (prep_cent cv) as [ce|] eqn:PC; [|discriminate]. simpl in H.
    destruct (fit_one c st f m ce) as [s2 [u|e]] eqn:F; [|discriminate]. injection H as ->.
    destruct (fit_one_ok c st f m ce st1 u F) as (s3 & p & z & FF & FE & A & Fi & N).
    destruct (fit_feature_limits c st f m s3 p FF) as (D & _).
    assert (R : forall ce', (ce' = ce \/ ce' = NoCent) -> refit c st1 f ce' = Ok false).
    { intros ce' Q. unfold refit. destruct (Nat.ltb_spec f (dim (c_data c))); [|lia]. rewrite Fi, A. cbn [negb].
      destruct Q as [->| ->]; [|reflexivity]. destruct ce; reflexivity. }
    split.
    - unfold eval. destruct Hcv as [->| ->].
      + rewrite PC, R by auto. reflexivity.
      + change (prep_cent (PyBool false)) with (Ok NoCent). cbv iota. rewrite R by auto. reflexivity.
    - exists p, (Some z). split; [exact FE|]. destruct (fit_feature_pure c E0 st f m EO) as (EP & _). rewrite FF in EP. cbn [snd] in EP. congruence. }
  destruct ES as (ES & p & z & FE & PF). rewrite HE in ES. cbn [fst] in ES. subst st'.
  destruct (eval_ok c rt st1 f xs het cv' st1 y h I1 HE) as (ce & p' & nc & g & A1 & A2 & A3 & A4 & A5 & A6 & A7 & A8 & A9 & A10 & A11 & A12 & _).
  rewrite FE in A2. injection A2 as <- <-. split; [exact A8|]. split; [exact A7|]. exists ce, p. split; [exact A1|]. split; [exact PF|].
  eapply drawn_ok; eauto.
Qed.

(** *** The same without bounds on the positions, in terms of [acc_curve] *)
Lemma shift_ext c f ce g g' : (forall x, g x = g' x) -> shift_of c f ce g = shift_of c f ce g'.
Proof. intros E. destruct ce; cbn [shift_of]; [reflexivity|apply E|]. f_equal. now apply map_ext. Qed.
Lemma eval_ale_parts c g rt ks f xs het cv st' y h : c_kind c = KALE -> c_model c = map g -> Forall (methods_ok bins_pos) ks ->
  eval c rt (run c rt (fresh None) ks) f xs het cv = (st', Ok (y, h)) ->
  lo_of c f < hi_of c f /\ (f < dim (c_data c))%nat /\
  exists n cl l l' ce be bv, fixed_binning n cl (fit_xs c f) (lo_of c f) (hi_of c f) l /\ widened l l' /\ increasing l' /\ (2 <= length l')%nat /\ (1 <= n)%nat /\
    prep_cent cv = Ok ce /\
    (let slopes k := map (slope (dt (c_data c)) g f l' k) (bin_of l' f (rows (kept c (lo_of c f) (hi_of c f) f)) k) in
     bin_means l' slopes be /\ bin_variances l' slopes bv) /\
    y = map (fun x => acc_curve l' be x - shift_of c f ce (acc_curve l' be)) xs /\
    h = if het then Some (map (acc_curve l' (map rt bv)) xs) else None.
Proof.
  intros K Hm F H.
  destruct (eval_after_history c None bins_pos (fun f p => exists m, bins_pos m /\ pfit c None f m = Ok p) rt ks f xs het cv st' y h
    (default_bins_pos c) (fun f0 m0 p0 Hm0 Hp0 => ex_intro _ m0 (conj Hm0 Hp0)) F H) as (ce & p & nc & q & PC & FE & (m & BP & PF) & LH & Hf & Hg & Ey & HH & HN).
  split; [exact LH|]. split; [exact Hf|].
  destruct (pfit_ale_definition c g None f m p K Hm BP PF LH) as (n & mp & cl & l & l' & MM & Hn & FB & W & I & L2 & C & B1 & B2 & E1 & E2).
  exists n, cl, l, l', ce, (ap_effect p), (ap_var p). do 6 (split; [assumption|]). split; [split; assumption|].
  assert (G : forall x, q x = acc_curve l' (ap_effect p) x). { intros x. pose proof (Hg [x]) as Q. rewrite E1 in Q. simpl in Q. now injection Q. }
  split.
  - rewrite Ey. apply map_ext. intros x. rewrite G. f_equal. now apply shift_ext.
  - destruct het; [|now apply HN]. destruct (HH eq_refl) as (gh & Hgh & ->). f_equal. apply map_ext. intros x.
    pose proof (Hgh [x]) as Q. rewrite (E2 rt) in Q. simpl in Q. now injection Q.
Qed.
Lemma eval_rhale_parts c jac E0 E rt ks f xs het cv st' y h : c_kind c = KRHALE jac -> match E0 with Some e => Ok e | None => compile c jac end = Ok E ->
  Forall (methods_ok bins_pos) ks -> eval c rt (run c rt (fresh E0) ks) f xs het cv = (st', Ok (y, h)) ->
  let Z := filter (fun q => in_range (lo_of c f) (hi_of c f) f (fst q)) (combine (rows (c_data c)) E) in
  lo_of c f < hi_of c f /\ (f < dim (c_data c))%nat /\
  exists l ce be bv, increasing l /\ (2 <= length l)%nat /\ prep_cent cv = Ok ce /\
    (let slopes k := map (fun q => (snd q)@f) (bin_pairs l f Z k) in bin_means l slopes be /\ bin_variances l slopes bv) /\
    y = map (fun x => acc_curve l be x - shift_of c f ce (acc_curve l be)) xs /\
    h = if het then Some (map (acc_curve l (map rt bv)) xs) else None.
Proof.
  intros K HE F H Z.
  destruct (eval_after_history c E0 bins_pos (fun f p => exists m, bins_pos m /\ pfit c E0 f m = Ok p) rt ks f xs het cv st' y h
    (default_bins_pos c) (fun f0 m0 p0 Hm0 Hp0 => ex_intro _ m0 (conj Hm0 Hp0)) F H) as (ce & p & nc & q & PC & FE & (m & BP & PF) & LH & Hf & Hg & Ey & HH & HN).
  split; [exact LH|]. split; [exact Hf|].
  destruct (pfit_rhale_definition c jac E0 E f m p K HE BP PF LH) as (l & FL & I & L2 & C & LE & B1 & B2 & E1 & E2).
  exists l, ce, (ap_effect p), (ap_var p). do 3 (split; [assumption|]). split; [split; assumption|].
  assert (G : forall x, q x = acc_curve l (ap_effect p) x). { intros x. pose proof (Hg [x]) as Q. rewrite E1 in Q. simpl in Q. now injection Q. }
  split.
  - rewrite Ey. apply map_ext. intros x. rewrite G. f_equal. now apply shift_ext.
  - destruct het; [|now apply HN]. destruct (HH eq_refl) as (gh & Hgh & ->). f_equal. apply map_ext. intros x.
    pose proof (Hgh [x]) as Q. rewrite (E2 rt) in Q. simpl in Q. now injection Q.
Qed.

(** value of the step integral at a limit *)
Lemma step_integral_at l es : forall k, increasing l -> (k < length l)%nat ->
  step_integral l es l@k = sumq (map (fun j => es@j * (l@(S j) - l@j)) (seq 0 k)).
Proof.
  induction k as [|k IH]; intros I Hk.
  - rewrite step_integral_left by (auto; apply Qcle_refl). reflexivity.
  - rewrite seq_S, map_app, sumq_app. simpl (0 + k)%nat. rewrite <- IH by (auto; lia). simpl.
    assert (L : l@k < l@(S k)) by (apply I; lia).
    pose proof (VisProofs.step_integral_in_bin l es k l@k l@(S k) I Hk (Qcle_refl _) (Qclt_le_weak _ _ L) (Qclt_le_weak _ _ L) (Qcle_refl _)) as Q.
    set (A := step_integral l es l@(S k)) in *. set (B := step_integral l es l@k) in *. clearbody A B. rewrite Qcplus_0_r. rewrite <- Q. ring.
Qed.
Lemma telescope (a : nat -> Qc) k : sumq (map (fun j => a (S j) - a j) (seq 0 k)) = a k - a 0%nat.
Proof. induction k as [|k IH]; [simpl; ring|]. rewrite seq_S, map_app, sumq_app, IH. simpl. ring. Qed.
