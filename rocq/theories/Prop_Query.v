(** C96: where the model is asked. An effect depends on the model only through its values at a stated set of points: ALE asks at the two
    limits of the bin of each instance, at most one bin width away from it (no extrapolation), RHALE with a Jacobian or data_effect never
    asks, RHALE without them asks at the instances and one step beyond, PDP and d-PDP at the positions evaluated and at the centering grid. *)
From Verif Require Import Base Numpy Spec ALESpec NumpyFacts Utils UtilsProofs LocalProofs Helpers Integrate HelpersProofs Binning BinProofs LimitsProofs
  GlobalALE ALEState ALEHist ALESpecFacts ALECurves ALEDefProofs OrderProofs GlobalPDP PDPFacts PDPProofs Prop_PDP Prop_Order Query.
Open Scope Qc_scope.
Open Scope list_scope.

(** * C96  ALE *)
(** The fits (of feature [f0] with method [m]) of a history followed by an eval of [f]; an eval may start a default fit. *)
Definition ale_fits (ks : list call) (f f0 : nat) (m : method) : Prop :=
  (exists fs cv, In (CallFit fs m cv) ks /\ In f0 fs) \/ (m = MStr "fixed" /\ (f0 = f \/ exists xs het cv, In (CallEval f0 xs het cv) ks)).
Theorem C96_ale : forall c c' g g' rt ks f xs het cv,
  c_kind c = KALE -> c_kind c' = KALE -> c_model c = map g -> c_model c' = map g' -> but_model c c' ->
  (forall f0 m n cl q, ale_fits ks f f0 m -> bins_of m n cl -> asked c n cl f0 q -> g q = g' q) ->
  snd (eval c rt (run c rt (fresh None) ks) f xs het cv) = snd (eval c' rt (run c' rt (fresh None) ks) f xs het cv).
Proof.
  intros c c' g g' rt ks f xs het cv K K' M M' B A. pose proof B as (DA & MI & MA).
  assert (DM : default_method c = MStr "fixed") by (unfold default_method; now rewrite K).
  apply (same_answers_when c c' None None (fun f0 m => ale_fits ks f f0 m)); auto.
  - split; [|intros m]; unfold default_method, method_allowed; rewrite K, K'; reflexivity.
  - now rewrite DA.
  - intros f0 m HP. unfold ALEHist.pfit, fit_feature. rewrite K, K'. cbn [snd]. eapply ale_fit_agree; eauto.
  - intros f0 m [(fs & cv0 & H1 & H2)|(E & H)]; [left; eauto|right; rewrite E; split; [exact DM|right; exact H]].
  - right. split; [exact DM|now left].
Qed.
Print Assumptions C96_ale.
(** The points asked are near the instances: less than a bin away for equal-width bins, ... *)
Theorem C96_ale_nearby : forall c n cl f q, (1 <= n)%nat -> (c_mins c)@f < (c_maxs c)@f -> asked c n cl f q ->
  (forall u, distinct_values (map (fun r => r@f) (inside_range (c_mins c)@f (c_maxs c)@f f (rows (c_data c)))) u -> (cl < length u)%nat) ->
  exists r v, In r (rows (c_data c)) /\ q = with_feature r f (store (dt (c_data c)) v) /\
    Qcabs (v - r@f) <= ((c_maxs c)@f - (c_mins c)@f) / qn n + Q2Qc (1 # 100000000).
Proof.
  intros c n cl f q Hn LH (l & l' & FB & WD & r & k & Hr & Hk & L1 & L2 & Q) HU. unfold inside_range in Hr. apply filter_In in Hr as (Hr & _).
  destruct FB as (u & DU & [((_ & LC) & _)|(_ & LL & EW)]); [specialize (HU u DU); lia|].
  destruct WD as (W1 & W2 & W3). set (lo := (c_mins c)@f) in *. set (hi := (c_maxs c)@f) in *.
  assert (E : l'@(S k) - l'@k <= (hi - lo) / qn n + Q2Qc (1 # 100000000)).
  { rewrite W1, LL in Hk. assert (Ek : l'@k = grid lo hi n k) by (rewrite W2 by lia; apply EW; lia).
    pose proof (grid_width lo hi n k Hn) as GW.
    assert (0 < Q2Qc (1 # 100000000)) by reflexivity.
    destruct (Nat.eq_dec (S k) n) as [Ekn|Nkn].
    - assert (El : l'@(S k) = grid lo hi n (S k) + Q2Qc (1 # 100000000)). { replace (S k) with (length l - 1)%nat by lia. rewrite W3. f_equal. rewrite LL. replace (S n - 1)%nat with (S k) by lia. apply EW. lia. }
      rewrite Ek, El. qlra.
    - assert (El : l'@(S k) = grid lo hi n (S k)) by (rewrite W2 by lia; apply EW; lia). rewrite Ek, El. qlra. }
  destruct Q as [-> | ->]; [exists r, (l'@k)|exists r, (l'@(S k))]; (split; [exact Hr|]); (split; [reflexivity|]); unfold Qcabs; destruct (Qcleb_spec 0 (l'@k - r@f)), (Qcleb_spec 0 (l'@(S k) - r@f)); qlra.
Qed.
Print Assumptions C96_ale_nearby.
(** ... at most half way to a neighbouring value for the bins of a categorical feature. *)
Ltac two := change (Q2Qc 2) with (1 + 1 : Qc) || replace (Q2Qc 2) with (1 + 1) in * by (apply Qc_is_canon; reflexivity); field; discriminate.
Theorem C96_ale_nearby_categorical : forall c n cl f q, asked c n cl f q ->
  let Z := inside_range (c_mins c)@f (c_maxs c)@f f (rows (c_data c)) in
  (forall u, distinct_values (map (fun r => r@f) Z) u -> (length u <= cl)%nat) ->
  exists r v w, In r (rows (c_data c)) /\ q = with_feature r f (store (dt (c_data c)) v) /\ In w (map (fun r => r@f) Z) /\ w <> r@f /\
    (forall z, In z (map (fun r => r@f) Z) -> ~ (r@f < z < w) /\ ~ (w < z < r@f)) /\
    Qcabs (v - r@f) <= Qcabs (w - r@f) / Q2Qc 2 + Q2Qc (1 # 100000000).
Proof.
  intros c n cl f q (l & l' & FB & WD & r & k & Hr & Hk & L1 & L2 & Q) Z HU. fold Z in FB, Hr.
  assert (HrX : In r (rows (c_data c))) by (unfold Z, inside_range in Hr; apply filter_In in Hr; tauto).
  set (xs := map (fun r => r@f) Z) in *. assert (Hx : In (r@f) xs) by (apply in_map_iff; exists r; split; [reflexivity|exact Hr]).
  destruct FB as (u & (IU & MU) & [((LC & _) & AR)|(LU & _)]); [|specialize (HU u (conj IU MU)); lia].
  destruct AR as (AL & A0 & AM & AE). destruct WD as (W1 & W2 & W3). set (x := r@f) in *.
  apply MU in Hx. apply (In_nth u x 0) in Hx as (i & Hi & Ei).
  assert (EPSP : 0 < Q2Qc (1 # 100000000)) by reflexivity. assert (H2 : 0 < Q2Qc 2) by reflexivity.
  assert (HF : forall a b, (a + b) / Q2Qc 2 = a + (b - a) / Q2Qc 2) by (intros a b; two).
  assert (HP : forall a, 0 < a -> 0 < a / Q2Qc 2) by (intros a Ha; now apply Qcdiv_lt_0).
  (* l'@j for the limits of the bin of u_i *)
  assert (IU' : forall a b, (a < b)%nat -> (b < length u)%nat -> u@a < u@b) by (intros a b; apply IU).
  assert (Eki : k = i).
  { rewrite W1, AL in Hk.
    assert (LO : forall j, (j < length u)%nat -> l'@j = (if Nat.eqb j 0 then u@0 - (u@1 - u@0) / Q2Qc 2 else (u@(j-1) + u@j) / Q2Qc 2)).
    { intros j Hj. rewrite W2 by lia. destruct j as [|j]; [exact A0|]. rewrite AM by lia. simpl. now rewrite Nat.sub_0_r. }
    destruct (Nat.lt_trichotomy k i) as [C|[C|C]]; [|exact C|]; exfalso.
    - assert (E : l'@(S k) = (u@k + u@(S k)) / Q2Qc 2) by (rewrite LO by lia; simpl; now rewrite Nat.sub_0_r).
      pose proof (IU' k i C Hi) as D1. assert (D2 : u@(S k) <= u@i) by (destruct (Nat.eq_dec (S k) i) as [->|]; [apply Qcle_refl|apply Qclt_le_weak, IU'; lia]).
      pose proof (IU' k (S k) ltac:(lia) ltac:(lia)) as D3. rewrite E, HF in L2. pose proof (HP (u@(S k) - u@k) ltac:(qlra)) as D4.
      assert (D5 : (u@(S k) - u@k) / Q2Qc 2 + (u@(S k) - u@k) / Q2Qc 2 = u@(S k) - u@k) by (two). rewrite <- Ei in L2. qlra.
    - assert (E : l'@k = (u@(k-1) + u@k) / Q2Qc 2) by (rewrite LO by lia; destruct (Nat.eqb_spec k 0); [lia|reflexivity]).
      assert (D2 : u@i <= u@(k-1)) by (destruct (Nat.eq_dec i (k-1)) as [->|]; [apply Qcle_refl|apply Qclt_le_weak, IU'; lia]).
      pose proof (IU' (k-1)%nat k ltac:(lia) ltac:(lia)) as D3. rewrite E, HF in L1. pose proof (HP (u@k - u@(k-1)) ltac:(qlra)) as D4. rewrite <- Ei in L1. qlra. }
  subst k. clear Hk.
  assert (NB : forall j, (j < length u)%nat -> (j = S i \/ S j = i)%nat -> In u@j xs /\ u@j <> x /\ forall z, In z xs -> ~ (x < z < u@j) /\ ~ (u@j < z < x)).
  { intros j Hj C. split; [apply MU, nth_In, Hj|]. split.
    - rewrite <- Ei. intros E. destruct C as [->|<-]; [pose proof (IU' i (S i) ltac:(lia) Hj)|pose proof (IU' j (S j) ltac:(lia) Hi)]; qlra.
    - intros z Hz. apply MU in Hz. apply (In_nth u z 0) in Hz as (t & Ht & <-). rewrite <- Ei.
      split; intros (Y1 & Y2); destruct (Nat.le_gt_cases t i) as [G|G]; destruct C as [->|<-].
      + destruct (Nat.eq_dec t i) as [->|]; [qlra|]. pose proof (IU' t i ltac:(lia) Hi). qlra.
      + destruct (Nat.eq_dec t (S j)) as [->|]; [qlra|]. pose proof (IU' t (S j) ltac:(lia) Hi). qlra.
      + destruct (Nat.eq_dec t (S i)) as [->|]; [qlra|]. pose proof (IU' (S i) t ltac:(lia) Ht). qlra.
      + pose proof (IU' (S j) t ltac:(lia) Ht). pose proof (IU' j (S j) ltac:(lia) Hi). qlra.
      + pose proof (IU' i (S i) ltac:(lia) Hj). destruct (Nat.eq_dec t i) as [->|]; [qlra|]. pose proof (IU' t i ltac:(lia) Hi). qlra.
      + destruct (Nat.eq_dec t (S j)) as [->|]; [qlra|]. destruct (Nat.eq_dec t j) as [->|]; [qlra|]. pose proof (IU' t j ltac:(lia) Hj). qlra.
      + pose proof (IU' i (S i) ltac:(lia) Hj). destruct (Nat.eq_dec t (S i)) as [->|]; [qlra|]. pose proof (IU' (S i) t ltac:(lia) Ht). qlra.
      + pose proof (IU' (S j) t ltac:(lia) Ht). qlra. }
  assert (AB : forall v j, (j < length u)%nat -> (j = S i \/ S j = i)%nat -> q = with_feature r f (store (dt (c_data c)) v) ->
    (v - x = (u@j - x) / Q2Qc 2 \/ v - x = - ((u@j - x) / Q2Qc 2) \/ v - x = - ((u@j - x) / Q2Qc 2) + Q2Qc (1 # 100000000) /\ (S j = i)%nat \/ v - x = (u@j - x) / Q2Qc 2 + Q2Qc (1 # 100000000) /\ (j = S i)%nat) ->
    exists r v w, In r (rows (c_data c)) /\ q = with_feature r f (store (dt (c_data c)) v) /\ In w xs /\ w <> r@f /\
      (forall z, In z xs -> ~ (r@f < z < w) /\ ~ (w < z < r@f)) /\ Qcabs (v - r@f) <= Qcabs (w - r@f) / Q2Qc 2 + Q2Qc (1 # 100000000)).
  { intros v j Hj C Eq Ev. destruct (NB j Hj C) as (N1 & N2 & N3). exists r, v, (u@j). fold x. repeat split; auto; try (apply N3; assumption).
    assert (SG : (0 < u@j - x /\ (j = S i)%nat) \/ (u@j - x < 0 /\ (S j = i)%nat)) by (rewrite <- Ei; destruct C as [->|<-]; [left; pose proof (IU' i (S i) ltac:(lia) Hj)|right; pose proof (IU' j (S j) ltac:(lia) Hi)]; split; auto; qlra).
    set (d := u@j - x) in *. assert (Ed : forall a, (- a) / Q2Qc 2 = - (a / Q2Qc 2)) by (intros; two).
    assert (AV : Qcabs d / Q2Qc 2 = if 0 <=? d then d / Q2Qc 2 else - (d / Q2Qc 2)) by (unfold Qcabs; destruct (0 <=? d); auto).
    rewrite AV. set (e := v - x) in *. clearbody e. destruct SG as [(SG & SJ)|(SG & SJ)].
    - pose proof (HP d SG) as HD. unfold Qcabs. destruct (Qcleb_spec 0 d); [|qlra]. destruct Ev as [->|[->|[(-> & ?)|(-> & ?)]]]; try lia; match goal with |- context [0 <=? ?t] => destruct (Qcleb_spec 0 t) end; qlra.
    - pose proof (HP (- d) ltac:(qlra)) as HD. rewrite Ed in HD. unfold Qcabs. destruct (Qcleb_spec 0 d); [qlra|]. destruct Ev as [->|[->|[(-> & ?)|(-> & ?)]]]; try lia; match goal with |- context [0 <=? ?t] => destruct (Qcleb_spec 0 t) end; qlra. }
  destruct Q as [Q|Q].
  - destruct i as [|i].
    + apply (AB _ 1%nat ltac:(lia) ltac:(lia) Q). right. left. rewrite W2 by lia. rewrite A0, <- Ei. two.
    + apply (AB _ i ltac:(lia) ltac:(lia) Q). left. rewrite W2 by lia. rewrite AM by lia. rewrite <- Ei. two.
  - destruct (Nat.eq_dec (S i) (length u)) as [El|Nl].
    + apply (AB _ (i - 1)%nat ltac:(lia) ltac:(lia) Q). right. right. left. split; [|lia]. replace (S i) with (length l - 1)%nat by lia. rewrite W3.
      replace (length l - 1)%nat with (length u) by lia. rewrite AE. replace (length u - 1)%nat with i by lia. replace (length u - 2)%nat with (i - 1)%nat by lia. rewrite <- Ei. two.
    + apply (AB _ (S i) ltac:(lia) ltac:(lia) Q). left. rewrite W2 by lia. rewrite AM by lia. rewrite <- Ei. two.
Qed.
Print Assumptions C96_ale_nearby_categorical.

(** * C96  RHALE with a Jacobian or the user's effects never asks the model *)
Theorem C96_rhale_no_model : forall c c' jac E0 rt ks f xs het cv,
  c_kind c = KRHALE jac -> c_kind c' = KRHALE jac -> but_model c c' -> jac <> None \/ E0 <> None ->
  snd (eval c rt (run c rt (fresh E0) ks) f xs het cv) = snd (eval c' rt (run c' rt (fresh E0) ks) f xs het cv).
Proof.
  intros c c' jac E0 rt ks f xs het cv K K' (DA & MI & MA) JE. apply same_answers; auto.
  - split; [|intros m]; unfold default_method, method_allowed; rewrite K, K'; reflexivity.
  - now rewrite DA.
  - intros f0 m. unfold ALEHist.pfit, fit_feature. rewrite K, K'. cbn [fresh st_eff].
    assert (FE : forall E, rhale_fit_feature c E f0 m = rhale_fit_feature c' E f0 m) by (intros E; unfold rhale_fit_feature, kept_effects, kept; now rewrite DA, MI, MA).
    destruct E0 as [e|]; cbn [snd]; [apply FE|]. destruct jac as [j|]; [|exfalso; destruct JE; congruence]. cbn [compile]. rewrite DA. cbn [snd]. apply FE.
Qed.
Print Assumptions C96_rhale_no_model.
Lemma mapM_ext_in {A B} (f f' : A -> res B) l : (forall a, In a l -> f a = f' a) -> mapM f l = mapM f' l.
Proof.
  induction l as [|a l IH]; intros H; [reflexivity|]. cbn [mapM]. rewrite (H a (or_introl eq_refl)). destruct (f' a); [|reflexivity]. cbn [bind].
  rewrite IH; [reflexivity|]. intros b Hb. apply H. now right.
Qed.
(** Without either, the model is asked at the instances and 1e-8 beyond them along each feature. *)
Theorem C96_rhale_numerical : forall c c' g g' rt ks f xs het cv,
  c_kind c = KRHALE None -> c_kind c' = KRHALE None -> c_model c = map g -> c_model c' = map g' -> but_model c c' -> 
  (forall r, In r (rows (c_data c)) -> g r = g' r /\ forall k, (k < dim (c_data c))%nat -> g (list_updn r k (fun v => v + Q2Qc (1 # 100000000))) = g' (list_updn r k (fun v => v + Q2Qc (1 # 100000000)))) ->
  snd (eval c rt (run c rt (fresh None) ks) f xs het cv) = snd (eval c' rt (run c' rt (fresh None) ks) f xs het cv).
Proof.
  intros c c' g g' rt ks f xs het cv K K' M M' (DA & MI & MA) A. apply same_answers; auto.
  - split; [|intros m]; unfold default_method, method_allowed; rewrite K, K'; reflexivity.
  - now rewrite DA.
  - intros f0 m. unfold ALEHist.pfit, fit_feature. rewrite K, K'. cbn [fresh st_eff].
    assert (FE : forall E, rhale_fit_feature c E f0 m = rhale_fit_feature c' E f0 m) by (intros E; unfold rhale_fit_feature, kept_effects, kept; now rewrite DA, MI, MA).
    assert (CE : compile c None = compile c' None).
    { unfold compile. rewrite M, M', <- DA. unfold compute_jacobian_numerically. f_equal. apply mapM_ext_in. intros k Hk. apply in_seq in Hk.
      destruct (dt (c_data c)); [|reflexivity]. unfold add_col. rewrite !map_map.
      rewrite (vzip_ext Qcminus _ (fun r => g' (list_updn r k (fun v => v + EPS))) g g'); [reflexivity|]. intros r Hr. destruct (A r Hr) as (A1 & A2). split; [apply A2; lia|exact A1]. }
    rewrite <- CE. destruct (compile c None) as [E|e]; cbn [snd]; [apply FE|reflexivity].
Qed.
Print Assumptions C96_rhale_numerical.

(** * C96  PDP and d-PDP *)
(** The positions of feature [s]: those evaluated, and the 100 centering points or the lower limit; d-PDP without a Jacobian asks 1e-6
    before and after each of them. *)
Definition pdp_positions (c : pconfig) (s : nat) (xs : list Qc) (cv : pyval) (x : Qc) : Prop :=
  let pos z := In z xs \/ (cv = PyStr "zero_start" /\ z = (p_mins c)@s) \/
               ((cv = PyBool true \/ cv = PyStr "zero_integral") /\ exists i, (i <= 99)%nat /\ z = grid (p_mins c)@s (p_maxs c)@s 99 i) in
  match p_kind c with
  | KDer None => pos (x - Q2Qc (1 # 1000000)) \/ pos (x + Q2Qc (1 # 1000000))
  | _ => pos x
  end.
Definition pdp_asked (c : pconfig) (X : data) (s : nat) (xs : list Qc) (cv : pyval) (q : list Qc) : Prop :=
  exists r x, In r (rows X) /\ (p_mins c)@s <= r@s <= (p_maxs c)@s /\ pdp_positions c s xs cv x /\ q = with_feature r s (store (dt X) x).
Theorem C96_pdp : forall c c' g g' G G' X rt s xs het cv all vec, row_object c (dim X) g G -> row_object c' (dim X) g' G' -> wf_data X -> limits_ok c (dim X) ->
  match p_kind c, p_kind c' with KPDP, KPDP | KDer None, KDer None | KDer (Some _), KDer (Some _) => True | _, _ => False end ->
  p_mins c = p_mins c' -> p_maxs c = p_maxs c' ->
  (s < dim X)%nat -> (p_mins c)@s < (p_maxs c)@s -> vec = true \/ xs <> [] ->
  (forall q, pdp_asked c X s xs cv q -> match p_kind c with KDer (Some _) => nth s (G q) 0 = nth s (G' q) 0 | _ => g q = g' q end) ->
  snd (peval c rt (pfresh X) s xs het cv all vec) = snd (peval c' rt (pfresh X) s xs het cv all vec).
Proof.
  intros c c' g g' G G' X rt s xs het cv all vec RO RO' W LIM KK MI MA S LH V A.
  assert (LIM' : limits_ok c' (dim X)) by (unfold limits_ok in *; now rewrite <- MI, <- MA).
  destruct (prep_cent cv) as [ce|e] eqn:PC; [|unfold peval; now rewrite PC].
  rewrite (peval_fresh c g G X RO W LIM rt s xs het cv ce all vec PC S LH V).
  rewrite (peval_fresh c' g' G' X RO' W LIM' rt s xs het cv ce all vec PC S) by (auto; now rewrite <- MI, <- MA).
  f_equal. f_equal. unfold shift_at. rewrite <- MI, <- MA.
  assert (EW : within c' [s] X = within c [s] X) by (unfold within, in_limits; now rewrite MI, MA). rewrite EW.
  set (v := pvalue (p_kind c) (dt X) g G s). set (v' := pvalue (p_kind c') (dt X) g' G' s).
  set (lo := (p_mins c)@s) in *. set (hi := (p_maxs c)@s) in *.
  set (pos := fun z => In z xs \/ (cv = PyStr "zero_start" /\ z = lo) \/ ((cv = PyBool true \/ cv = PyStr "zero_integral") /\ exists i, (i <= 99)%nat /\ z = grid lo hi 99 i)).
  assert (VV : forall r x, In r (rows (within c [s] X)) -> pos x -> v r x = v' r x).
  { intros r x Hr Px. unfold within in Hr. cbn [rows] in Hr. apply filter_In in Hr as (Hr & HL). cbn [forallb] in HL. rewrite andb_true_r in HL. unfold in_limits in HL.
    apply andb_prop in HL as (HL1 & HL2). apply Qcleb_le in HL1, HL2.
    assert (AQ : forall z, pdp_positions c s xs cv z -> pdp_asked c X s xs cv (list_set r s (store (dt X) z))) by (intros z Hz; exists r, z; repeat split; auto).
    unfold v, v', pvalue. unfold pdp_positions in AQ. fold lo hi in AQ. cbv zeta in AQ. fold (pos) in AQ.
    destruct (p_kind c) as [|[j|]], (p_kind c') as [|[j'|]]; try contradiction.
    - apply A, AQ. exact Px.
    - apply A, AQ. exact Px.
    - rewrite (A _ (AQ (x + STEP) ltac:(left; replace (x + STEP - Q2Qc (1 # 1000000)) with x by (unfold STEP; ring); exact Px))).
      rewrite (A _ (AQ (x - STEP) ltac:(right; replace (x - STEP + Q2Qc (1 # 1000000)) with x by (unfold STEP; ring); exact Px))). reflexivity. }
  unfold centered. apply map_ext_in. intros x Hx. apply map_ext_in. intros r Hr. rewrite (VV r x Hr (or_introl Hx)). f_equal.
  unfold shift. destruct ce; [reflexivity| |].
  - apply VV; [exact Hr|]. right. left. split; [|reflexivity]. apply prep_cent_requested in PC. unfold requested in PC. cbn [cent_of] in PC. intuition congruence.
  - f_equal. apply map_ext_in. intros x0 Hx0. apply VV; [exact Hr|]. right. right. split.
    + apply prep_cent_requested in PC. unfold requested in PC. cbn [cent_of] in PC. intuition congruence.
    + apply (In_nth _ _ 0) in Hx0 as (i & Hi & <-). rewrite linspace_length in Hi. exists i. split; [lia|]. apply (linspace_grid lo hi 99 i); lia.
Qed.
Print Assumptions C96_pdp.
(** After any histories, when the instances lie inside the limits (the default limits). *)
Corollary C96_pdp_history : forall c c' g g' G G' X rt ks ks' s xs het cv all vec, row_object c (dim X) g G -> row_object c' (dim X) g' G' -> wf_data X -> limits_ok c (dim X) ->
  match p_kind c, p_kind c' with KPDP, KPDP | KDer None, KDer None | KDer (Some _), KDer (Some _) => True | _, _ => False end ->
  p_mins c = p_mins c' -> p_maxs c = p_maxs c' ->
  (forall f r, (f < dim X)%nat -> In r (rows X) -> (p_mins c)@f <= r@f <= (p_maxs c)@f) ->
  (forall fs cv' pts vec', In (PFit fs cv' pts vec') ks \/ In (PFit fs cv' pts vec') ks' -> pts = PyInt 100) ->
  (s < dim X)%nat -> (p_mins c)@s < (p_maxs c)@s -> vec = true \/ xs <> [] ->
  (forall q, pdp_asked c X s xs cv q -> match p_kind c with KDer (Some _) => nth s (G q) 0 = nth s (G' q) 0 | _ => g q = g' q end) ->
  snd (peval c rt (prun c rt (pfresh X) ks) s xs het cv all vec) = snd (peval c' rt (prun c' rt (pfresh X) ks') s xs het cv all vec).
Proof.
  intros c c' g g' G G' X rt ks ks' s xs het cv all vec RO RO' W LIM KK MI MA INL HP S LH V A.
  assert (LIM' : limits_ok c' (dim X)) by (unfold limits_ok in *; now rewrite <- MI, <- MA).
  rewrite (C29_history_free_partial c g G X rt ks s xs het cv all vec RO W LIM INL); auto; [|intros; eapply HP; eauto].
  rewrite (C29_history_free_partial c' g' G' X rt ks' s xs het cv all vec RO' W LIM'); auto; [|rewrite <- MI, <- MA; exact INL|intros; eapply HP; eauto|now rewrite <- MI, <- MA].
  eapply C96_pdp; eauto.
Qed.
Print Assumptions C96_pdp_history.

(** * C96  Example: two perfectly correlated features *)
(** The models x_0*x_1 and x_0*x_1 with an arbitrary value wherever |x_0-x_1| > 3. ALE cannot tell them apart, PDP does. *)
Definition ex96X := mkData Float64 2 [qs [0; 0]; qs [1; 1]; qs [2; 2]; qs [3; 3]; qs [4; 4]; qs [5; 5]; qs [0; 0]; qs [5; 5]].
Definition ex96g (r : list Qc) : Qc := r@0 * r@1.
Definition ex96h (a : Qc) (r : list Qc) : Qc := if Qcabs (r@0 - r@1) <=? Q2Qc 3 then r@0 * r@1 else a.
Definition ex96 (g : list Qc -> Qc) := mkCfg KALE ex96X (map g) (qs [0; 0]) (qs [5; 5]).
Definition ex96ks := [CallFit [0%nat] (MFixed 5 (Some 0%nat) 2) (PyBool true)].
Example C96_ale_instance : forall a xs het cv rt,
  snd (eval (ex96 ex96g) rt (run (ex96 ex96g) rt (fresh None) ex96ks) 0 xs het cv) = snd (eval (ex96 (ex96h a)) rt (run (ex96 (ex96h a)) rt (fresh None) ex96ks) 0 xs het cv).
Proof.
  intros a xs het cv rt. apply (C96_ale _ _ ex96g (ex96h a)); try reflexivity; [now repeat split|]. intros f0 m n cl q FT BO AQ.
  set (xv := map (fun r => r@0) (inside_range (Q2Qc 0) (Q2Qc 5) 0 (rows ex96X))).
  assert (XV : xv = qs [0; 1; 2; 3; 4; 5; 0; 5]) by (vm_compute; reflexivity).
  assert (DU : forall u, distinct_values xv u -> length u = 6%nat).
  { intros u (IU & MU). assert (u = qs [0; 1; 2; 3; 4; 5]) as ->; [|reflexivity].
    apply (distinct_unique xv); [split; assumption|]. rewrite XV. change (qs [0; 1; 2; 3; 4; 5]) with (unique (qs [0; 1; 2; 3; 4; 5; 0; 5])). split; [apply unique_increasing|intros x; apply unique_in]. }
  assert (NR : exists r v, In r (rows ex96X) /\ q = with_feature r 0 v /\ Qcabs (v - r@0) <= Q2Qc 3).
  { destruct FT as [(fs & cv0 & [H|[]] & HI)|(-> & [->|(xs0 & het0 & cv0 & [H|[]])])]; [| |discriminate H].
    - injection H as <- <- <-. destruct HI as [<-|[]]. destruct BO as [(H & _)|(mp & H)]; [discriminate|]. injection H as <- <- <-.
      destruct (C96_ale_nearby (ex96 ex96g) 5 2 0 q) as (r & v & R1 & R2 & R3); [lia|reflexivity|exact AQ| |].
      + intros u Hu. change (distinct_values xv u) in Hu. rewrite (DU u Hu). lia.
      + exists r, v. split; [exact R1|]. split; [exact R2|]. eapply Qcle_trans; [exact R3|]. vm_compute. discriminate.
    - destruct BO as [(_ & -> & ->)|(mp & H)]; [|discriminate].
      destruct (C96_ale_nearby_categorical (ex96 ex96g) 20 15 0 q AQ) as (r & v & w & R1 & R2 & R3 & _ & _ & R4).
      + intros u Hu. change (distinct_values xv u) in Hu. rewrite (DU u Hu). lia.
      + exists r, v. split; [exact R1|]. split; [exact R2|]. change (In w xv) in R3. rewrite XV in R3.
        assert (B : forall z, In z (qs [0; 1; 2; 3; 4; 5; 0; 5]) -> Q2Qc 0 <= z <= Q2Qc 5).
        { intros z Hz. simpl in Hz. repeat (destruct Hz as [<-|Hz]; [split; vm_compute; discriminate|]). destruct Hz. }
        assert (BR : Q2Qc 0 <= r@0 <= Q2Qc 5). { apply B. cbn [c_data ex96 ex96X rows] in R1. simpl in R1. repeat (destruct R1 as [<-|R1]; [simpl; auto 12|]). destruct R1. }
        specialize (B w R3). assert (BD : Qcabs (w - r@0) / Q2Qc 2 <= Q2Qc (5 # 2)).
        { assert (Qcabs (w - r@0) <= Q2Qc 5) by (unfold Qcabs; destruct (0 <=? w - r@0); qlra).
          replace (Q2Qc (5 # 2)) with (Q2Qc 5 / Q2Qc 2) by (apply Qc_is_canon; reflexivity). unfold Qcdiv. apply Qcmult_le_compat_r; [assumption|vm_compute; discriminate]. }
        eapply Qcle_trans; [exact R4|]. eapply Qcle_trans; [apply Qcplus_le_compat; [exact BD|apply Qcle_refl]|]. vm_compute. discriminate. }
  destruct NR as (r & v & R1 & -> & R3). unfold ex96g, ex96h.
  assert (E : Qcabs ((with_feature r 0 v)@0 - (with_feature r 0 v)@1) = Qcabs (v - r@0)).
  { cbn [rows ex96X] in R1. simpl in R1. repeat (destruct R1 as [<-|R1]; [reflexivity|]). destruct R1. }
  rewrite E. apply Qcleb_le in R3. now rewrite R3.
Qed.
Example C96_ale_values : rmap (fun p => show (fst p)) (snd (eval (ex96 (ex96h (Q2Qc 1000))) (fun v => v) (run (ex96 (ex96h (Q2Qc 1000))) (fun v => v) (fresh None) ex96ks) 0 (qs [1; 2; 3]) true (PyBool false))) = Ok [0; 1; 3]%Q.
Proof. vm_compute. reflexivity. Qed.
Definition ex96p (g : list Qc -> Qc) := mkPC KPDP (map g) (qs [0; 0]) (qs [5; 5]).
Example C96_pdp_differs :
  rmap showp (snd (peval (ex96p ex96g) (fun v => v) (pfresh ex96X) 0 (qs [5]) false (PyBool false) false true)) <>
  rmap showp (snd (peval (ex96p (ex96h (Q2Qc 1000))) (fun v => v) (pfresh ex96X) 0 (qs [5]) false (PyBool false) false true)).
Proof. vm_compute. discriminate. Qed.
(** ... although PDP agrees too where the models agree at every combination asked: at the position 5/2. *)
Example C96_pdp_instance : forall a rt, snd (peval (ex96p ex96g) rt (pfresh ex96X) 0 [Q2Qc (5 # 2)] true (PyBool false) false true) =
  snd (peval (ex96p (ex96h a)) rt (pfresh ex96X) 0 [Q2Qc (5 # 2)] true (PyBool false) false true).
Proof.
  intros a rt. apply (C96_pdp _ _ ex96g (ex96h a) (fun _ => []) (fun _ => [])); try reflexivity; try (split; auto; fail); auto.
  - now split.
  - now split.
  - intros r Hr. simpl in Hr. repeat (destruct Hr as [<-|Hr]; [reflexivity|]). destruct Hr.
  - cbn. lia.
  - intros q (r & x & Hr & _ & HX & ->). cbn [p_kind ex96p pdp_positions] in *. unfold pdp_positions in HX. cbn [p_kind ex96p] in HX.
    destruct HX as [[<-|[]]|[(H & _)|([H|H] & _)]]; try discriminate. 
    simpl in Hr. repeat (destruct Hr as [<-|Hr]; [vm_compute; reflexivity|]). destruct Hr.
Qed.
