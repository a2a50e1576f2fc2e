(** Property C79: a feature that does not interact with the others is not split. *)
From Verif Require Import Base Numpy Spec ALESpec NumpyFacts Utils UtilsProofs Helpers HelpersProofs Binning BinProofs LimitsProofs GlobalALE ALEState ALEHist ALEFit ALEProps ALECurves
  ALESpecFacts ALEDefProofs LawsProofs Prop_GlobalALE Prop_ALELaws GlobalPDP PDPProofs PDPFacts GlobalShap
  PartSpec Partition PartProofs PartSearch PartTree PartFacts PartNodes Regional RegProofs RegNodes RegPlotProofs Report ReportProofs HeterProofs Prop_Partition Prop_Regional Prop_Report.
Open Scope Qc_scope.
Open Scope list_scope.

(** ** The root *)
Lemma take_in {A} (l : list A) : forall idx es, take l idx = Ok es -> forall e, In e es -> In e l.
Proof.
  unfold take. induction idx as [|i idx IH]; intros es H e He; simpl in H; [injection H as <-; destruct He|].
  apply bind_ok in H as (a & Ha & H). apply bind_ok in H as (b & Hb & H). injection H as <-. destruct He as [<-|He]; [|exact (IH _ Hb e He)].
  unfold getn in Ha. destruct (nth_error l i) eqn:EN; [|discriminate]. injection Ha as <-. now apply nth_error_In in EN.
Qed.
Lemma construct_all choice k X model al E gc s : construct choice k X model (PyStr "all") al E = Ok (gc, s) ->
  c_data gc = X /\ c_kind gc = k /\ c_model gc = model /\
  exists e0, s = fresh e0 /\ (k = KALE -> e0 = None) /\ (forall jac e, k = KRHALE jac -> E = Some e -> exists e1, e0 = Some e1 /\ forall a, In a e1 -> In a e).
Proof.
  unfold construct. intros H. apply bind_ok in H as ([z idx] & H1 & H). simpl in H1. injection H1 as <- <-. rewrite select_rows_all in H. cbn [bind] in H.
  apply bind_ok in H as (es & H2 & H). apply bind_ok in H as ([mi ma] & H3 & H). injection H as <- <-. cbn [c_data c_kind c_model]. split; [now destruct X|]. split; [reflexivity|]. split; [reflexivity|].
  exists es. split; [reflexivity|]. split.
  - intros ->. injection H2 as <-. reflexivity.
  - intros jac e -> ->. unfold select_rows in H2. destruct (take e (seq 0 (length (rows X)))) as [e1|] eqn:T; [|discriminate]. injection H2 as <-. exists e1. split; [reflexivity|]. exact (take_in _ _ _ T).
Qed.
(** A dataset on which the derivative is constant: RHALE reports no heterogeneity. *)
Lemma rhale_constant c jac E0 E d rt ks f xs cv st' y h :
  c_kind c = KRHALE jac -> match E0 with Some e => Ok e | None => compile c jac end = Ok E -> (forall e, In e E -> e@f = d) ->
  rt 0 = 0 -> Forall positive_bins ks -> eval c rt (run c rt (fresh E0) ks) f xs true cv = (st', Ok (y, Some h)) -> forall v, In v h -> v = 0.
Proof.
  intros K HE NI R F H.
  destruct (eval_rhale_parts c jac E0 E rt ks f xs true cv st' y (Some h) K HE (positive_bins_ok ks F) H) as (LH & Hf & l & ce & be & bv & I & L2 & PC & (BM & BV) & Ey & Eh).
  injection Eh as ->. intros v Hv. apply in_map_iff in Hv as (x & <- & _). apply acc_curve_zero; auto.
  intros k Hk. pose proof (bin_variances_length _ _ _ BV) as LV. rewrite map_nth0 by lia. replace (bv@k) with 0; [exact R|]. symmetry.
  refine (bin_variances_zero _ _ _ BV _ k Hk). intros j Hj. exists d. intros v Hv. apply slopes_pairs_in in Hv as (e & He & ->). now apply NI.
Qed.
(** A root without heterogeneity has no important split. *)
Lemma flat_root g r ss : (forall v, In v (levels r ss) -> 0 <= v) -> r_heter r = 0 \/ r_heter r = BIG_M -> choose_important_splits g (Some (r, ss)) = [].
Proof.
  intros NN [Z|Z]; [|apply C39_nothing; now left]. destruct (Qclt_le_dec 0 (g_small_enough g)) as [L|L]; [apply C39_nothing; right; now rewrite Z|].
  destruct (C39_longest_prefix g r ss NN) as (m & E & Hm & AD & _); [rewrite Z; discriminate|now rewrite Z|]. rewrite E. destruct m as [|m]; [reflexivity|exfalso].
  specialize (AD 0%nat ltac:(lia)). unfold levels in AD, NN. simpl in AD. rewrite Z in AD. destruct ss as [|s ss]; [simpl in Hm; lia|]. simpl in AD.
  specialize (NN (s_wheter s) ltac:(simpl; auto)). qlra.
Qed.

(** What is described when no split of the feature is important. *)
Definition not_split (r : res (list description)) : Prop := r = Ok [NoImportantSplits] \/ r = Ok [Skipped].
Lemma described_flat x c limit ks1 fs o ks2 f scale g fd imp : wf_reg c -> In f fs -> Forall (fun k => ~ xfits f k) ks2 ->
  snd (rfit x c (xrun x c limit qfresh ks1) fs o) = Ok tt -> partition_of x c f o = Ok (g, fd, imp) -> scales_all c scale -> imp = [] ->
  not_split (snd (describe_subregions x c (xrun x c limit qfresh (ks1 ++ XCall (QFit fs o) :: ks2)) [f] true scale)).
Proof.
  intros W HI HN HF HP SC E0. destruct fd as [[r ss]|].
  - left. now apply (C69_described x c limit ks1 fs o ks2 f true scale g r ss imp W HI HN HF HP SC).
  - right. now apply (C69_skipped x c limit ks1 fs o ks2 f true scale g imp HI HN HF HP).
Qed.
Lemma fitted_partition x c limit ks fs o f : In f fs -> snd (rfit x c (xrun x c limit qfresh ks) fs o) = Ok tt -> exists g fd imp, partition_of x c f o = Ok (g, fd, imp).
Proof. intros HI HF. destruct (after_fit x c limit ks fs o [] f HI (Forall_nil _) HF) as ([[g fd] imp] & t1 & t2 & P & _). now exists g, fd, imp. Qed.

(** * C79  A feature that does not interact is not split *)
(** Any history, then a fit that includes [f] and succeeds, then any history without a fit of [f].
    RegionalALE, a feature without interactions ([no_interaction] of C75), any options. *)
Theorem C79_ale : forall x c g a limit ks1 fs o ks2 f scale, wf_reg c -> q_kind c = RALE -> q_model c = map g -> no_interaction g f (rows (q_data c)) a ->
  x_rt x 0 = 0 -> (forall q, 0 <= q -> 0 <= x_rt x q) -> some_bins (fo_binning o) -> scales_all c scale ->
  In f fs -> Forall (fun k => ~ xfits f k) ks2 -> snd (rfit x c (xrun x c limit qfresh ks1) fs o) = Ok tt ->
  not_split (snd (describe_subregions x c (xrun x c limit qfresh (ks1 ++ XCall (QFit fs o) :: ks2)) [f] true scale)).
Proof.
  intros x c g a limit ks1 fs o ks2 f scale W0 K M NI R0 RP SB SC HI HN HF. destruct (fitted_partition _ _ _ _ _ _ _ HI HF) as (gr & fd & imp & HP).
  apply (described_flat x c limit ks1 fs o ks2 f scale gr fd imp); try assumption. pose proof (partition_heter _ _ _ _ _ _ _ HP) as HH.
  destruct fd as [[r ss]|]; [|now destruct (partition_fields _ _ _ _ _ _ _ HP) as (_ & -> & _)].
  destruct (fitted_tree x c limit ks1 fs o ks2 f true scale gr r ss imp W0 HI HN HF HP SC) as (W & SR & EI & ED & EE & _). rewrite EI.
  assert (NN : forall Z E v, g_heter gr Z E = Ok v -> 0 <= v) by (intros Z E v Hv; exact (C70_nonneg x c f o _ Z E v (or_introl K) HH RP SB Hv)).
  apply flat_root; [exact (C39_search gr r ss W NN SR)|]. destruct (search_inv gr r ss W SR) as (_ & H0 & _). rewrite ED, EE in H0.
  destruct (Nat.lt_ge_cases (length (rows (q_data c))) (fo_minpts o)) as [L|L].
  { right. rewrite (C70_too_small x c f o _ _ (q_effects c) HH L) in H0. now injection H0 as <-. }
  destruct (C70_ale x c f o _ _ _ _ (or_introl K) HH L H0) as (m & gc & s & PM & HC & HD). rewrite K in HC.
  destruct (construct_all _ _ _ _ _ _ _ _ HC) as (CD & CK & CM & e0 & -> & CE & _). specialize (CE eq_refl). subst e0.
  destruct HD as [(e & _ & ->) | (s1 & lo & hi & y & s2 & F & _ & EV)]; [right; reflexivity|left].
  refine (proj2 (C75_no_heterogeneity gc g a (x_rt x) [CallFit [f] m (fo_centering o)] f [hi] (PyBool false) s2 y [r_heter r] CK _ _ R0 _ _) (r_heter r) (or_introl eq_refl)).
  - now rewrite CM, M.
  - rewrite CD. exact NI.
  - constructor; [|constructor]. apply names_bins in PM; [|exact SB]. destruct m; exact PM || exact I.
  - unfold run. simpl. rewrite F. exact EV.
Qed.
Print Assumptions C79_ale.
(** RegionalRHALE, a feature whose derivative is the same number at every instance. *)
Theorem C79_rhale : forall x c jac E d limit ks1 fs o ks2 f scale, wf_reg c -> q_kind c = RRHALE jac -> q_effects c = Some E -> (forall e, In e E -> e@f = d) ->
  x_rt x 0 = 0 -> (forall q, 0 <= q -> 0 <= x_rt x q) -> some_bins (fo_binning o) -> scales_all c scale ->
  In f fs -> Forall (fun k => ~ xfits f k) ks2 -> snd (rfit x c (xrun x c limit qfresh ks1) fs o) = Ok tt ->
  not_split (snd (describe_subregions x c (xrun x c limit qfresh (ks1 ++ XCall (QFit fs o) :: ks2)) [f] true scale)).
Proof.
  intros x c jac E d limit ks1 fs o ks2 f scale W0 K QE NI R0 RP SB SC HI HN HF. destruct (fitted_partition _ _ _ _ _ _ _ HI HF) as (gr & fd & imp & HP).
  apply (described_flat x c limit ks1 fs o ks2 f scale gr fd imp); try assumption. pose proof (partition_heter _ _ _ _ _ _ _ HP) as HH.
  destruct fd as [[r ss]|]; [|now destruct (partition_fields _ _ _ _ _ _ _ HP) as (_ & -> & _)].
  destruct (fitted_tree x c limit ks1 fs o ks2 f true scale gr r ss imp W0 HI HN HF HP SC) as (W & SR & EI & ED & EE & _). rewrite EI.
  assert (K2 : q_kind c = RALE \/ exists jac, q_kind c = RRHALE jac) by (right; now exists jac).
  assert (NN : forall Z E v, g_heter gr Z E = Ok v -> 0 <= v) by (intros Z E1 v Hv; exact (C70_nonneg x c f o _ Z E1 v K2 HH RP SB Hv)).
  apply flat_root; [exact (C39_search gr r ss W NN SR)|]. destruct (search_inv gr r ss W SR) as (_ & H0 & _). rewrite ED, EE in H0.
  destruct (Nat.lt_ge_cases (length (rows (q_data c))) (fo_minpts o)) as [L|L].
  { right. rewrite (C70_too_small x c f o _ _ (q_effects c) HH L) in H0. now injection H0 as <-. }
  destruct (C70_ale x c f o _ _ _ _ K2 HH L H0) as (m & gc & s & PM & HC & HD). rewrite K, QE in HC.
  destruct (construct_all _ _ _ _ _ _ _ _ HC) as (CD & CK & CM & e0 & -> & _ & CE). destruct (CE jac E eq_refl eq_refl) as (e1 & -> & SUB).
  destruct HD as [(e & _ & ->) | (s1 & lo & hi & y & s2 & F & _ & EV)]; [right; reflexivity|left].
  refine (rhale_constant gc jac (Some e1) e1 d (x_rt x) [CallFit [f] m (fo_centering o)] f [hi] (PyBool false) s2 y [r_heter r] CK eq_refl _ R0 _ _ (r_heter r) (or_introl eq_refl)).
  - intros e He. apply NI, SUB, He.
  - constructor; [|constructor]. apply names_bins in PM; [|exact SB]. destruct m; exact PM || exact I.
  - unfold run. simpl. rewrite F. exact EV.
Qed.
Print Assumptions C79_rhale.
(** RegionalDerPDP, a feature along which the derivative does not depend on the other features. *)
Lemma spread_flat rt (curve : list Qc -> Qc -> Qc) Z f v : spread rt curve Z f v -> (forall r r' t, In r Z -> In r' Z -> curve r t = curve r' t) -> Z <> [] -> rt 0 = 0 -> v = 0.
Proof.
  intros (lo & hi & _ & ->) H NE R. apply mean_const; [discriminate|]. intros q Hq. apply in_map_iff in Hq as (t & <- & _).
  replace (variance (map (fun r => curve r t) Z)) with 0; [exact R|]. symmetry. destruct Z as [|z Z]; [congruence|]. apply variance_zero_iff; [discriminate|].
  intros a b Ha Hb. apply in_map_iff in Ha as (r & <- & Hr). apply in_map_iff in Hb as (r' & <- & Hr'). now apply H.
Qed.
Lemma Some_inj {A} (a b : A) : Some a = Some b -> a = b.
Proof. now injection 1. Qed.
Lemma pdp_nonneg x c k f mp cv nof pts vec Z E v : (forall q, 0 <= q -> 0 <= x_rt x q) -> heter_pdp x c k f mp cv nof pts vec Z E = Ok v -> 0 <= v.
Proof.
  intros RP H. unfold heter_pdp in H. destruct (Nat.ltb _ _); [injection H as <-; discriminate|]. apply bind_ok in H as ([gc s] & _ & H).
  destruct (pfit gc s [f] cv pts vec) as [s1 r]. destruct r as [u|e]; [|destruct e; try discriminate; injection H as <-; discriminate]. cbn [caught] in H.
  apply bind_ok in H as ([mi ma] & _ & H). apply bind_ok in H as (lo & _ & H). apply bind_ok in H as (hi & _ & H).
  destruct (snd (peval gc (x_rt x) s1 f (linspace lo hi 10) true (PyBool false) false vec)) as [out|e] eqn:PE; [|destruct e; try discriminate; injection H as <-; discriminate]. cbn [caught] in H.
  destruct out as [y|y z|]; try discriminate.
  assert (NZ : forall q, In (Some q) z -> 0 <= q).
  { assert (G : exists yy, z = row_stds (x_rt x) yy).
    { unfold peval in PE. destruct (prep_cent (PyBool false)) as [ce|]; [|discriminate]. destruct (prefit s1 f ce) as [[|]|]; [| |discriminate].
      - destruct (pfit gc s1 [f] (PyBool false) default_pts vec) as [s2 [u2|]]; [|discriminate]. cbn [snd] in PE. unfold peval_fitted in PE.
        apply bind_ok in PE as (a1 & _ & PE). apply bind_ok in PE as (a2 & _ & PE). apply bind_ok in PE as (a3 & _ & PE). apply bind_ok in PE as (a4 & _ & PE). apply bind_ok in PE as (yy & _ & PE). injection PE as _ <-. now exists yy.
      - cbn [snd] in PE. unfold peval_fitted in PE.
        apply bind_ok in PE as (a1 & _ & PE). apply bind_ok in PE as (a2 & _ & PE). apply bind_ok in PE as (a3 & _ & PE). apply bind_ok in PE as (a4 & _ & PE). apply bind_ok in PE as (yy & _ & PE). injection PE as _ <-. now exists yy. }
    destruct G as [yy ->]. intros q Hq. unfold row_stds in Hq. apply in_map_iff in Hq as (r & Er & _). destruct r as [|q0 r]; [discriminate|]. assert (q = x_rt x (variance (q0 :: r))) as -> by (apply Some_inj; rewrite <- Er, np_var_some by discriminate; reflexivity). apply RP. exact (variance_nonneg (q0 :: r)). }
  unfold mean_or_nan in H. destruct z as [|o0 z]; [discriminate|]. apply bind_ok in H as (vs & Hv & H). injection H as <-.
  assert (LV : vs <> []). { apply mapM_length in Hv. destruct vs; [discriminate|]. discriminate. }
  assert (NV : forall q, In q vs -> 0 <= q).
  { clear -Hv NZ. revert vs Hv. generalize (o0 :: z) as l, NZ. clear NZ. induction l as [|[q|] l IH]; intros NZ vs Hv; cbn [mapM] in Hv; [injection Hv as <-; intros q []| |discriminate].
    cbn [bind] in Hv. apply bind_ok in Hv as (ws & Hw & Hv). injection Hv as <-. intros u [<-|Hu]; [apply NZ; now left|]. apply (IH (fun q' H' => NZ q' (or_intror H')) ws Hw u Hu). }
  unfold mean. apply Qcmult_le_0; [now apply sumq_nonneg|]. apply Qclt_le_weak, Qcinv_pos, qn_pos. destruct vs; [congruence|]. simpl. lia.
Qed.
Lemma flat_fit x c limit ks1 fs o ks2 f scale : wf_reg c -> scales_all c scale -> (forall h Z E v, heter_of x c f o = Ok h -> h Z E = Ok v -> 0 <= v) -> (forall h v, heter_of x c f o = Ok h -> h (rows (q_data c)) (q_effects c) = Ok v -> v = 0) ->
  In f fs -> Forall (fun k => ~ xfits f k) ks2 -> snd (rfit x c (xrun x c limit qfresh ks1) fs o) = Ok tt ->
  not_split (snd (describe_subregions x c (xrun x c limit qfresh (ks1 ++ XCall (QFit fs o) :: ks2)) [f] true scale)).
Proof.
  intros W0 SC NN HZ HI HN HF. destruct (fitted_partition _ _ _ _ _ _ _ HI HF) as (gr & fd & imp & HP).
  apply (described_flat x c limit ks1 fs o ks2 f scale gr fd imp); try assumption. pose proof (partition_heter _ _ _ _ _ _ _ HP) as HH.
  destruct (partition_fields _ _ _ _ _ _ _ HP) as (_ & -> & _). destruct fd as [[r ss]|]; [|reflexivity].
  destruct (fitted_tree x c limit ks1 fs o ks2 f true scale gr r ss _ W0 HI HN HF HP SC) as (W & SR & _ & ED & EE & _).
  destruct (search_inv gr r ss W SR) as (_ & H0 & _). rewrite ED, EE in H0. apply flat_root; [exact (C39_search gr r ss W (fun Z E v => NN _ Z E v HH) SR)|left; exact (HZ _ _ HH H0)].
Qed.
Theorem C79_dpdp : forall x c g G d limit ks1 fs o ks2 f scale, wf_reg c -> q_kind c = RDerPDP (Some (map G)) -> q_model c = map g ->
  (forall r, length r = dim (q_data c) -> length (G r) = dim (q_data c)) -> dt (q_data c) = Float64 -> inside c f o (rows (q_data c)) ->
  (forall r v, In r (rows (q_data c)) -> (G (with_feature r f v))@f = d v) -> x_rt x 0 = 0 -> (forall q, 0 <= q -> 0 <= x_rt x q) -> scales_all c scale ->
  In f fs -> Forall (fun k => ~ xfits f k) ks2 -> snd (rfit x c (xrun x c limit qfresh ks1) fs o) = Ok tt ->
  not_split (snd (describe_subregions x c (xrun x c limit qfresh (ks1 ++ XCall (QFit fs o) :: ks2)) [f] true scale)).
Proof.
  intros x c g G d limit ks1 fs o ks2 f scale W0 K M LG DT IN NI R0 RP SC HI HN HF. apply flat_fit; try assumption; [intros h Z E v HH; unfold heter_of in HH; rewrite K in HH; injection HH as <-; now apply pdp_nonneg|]. intros h v HH HV.
  destruct (C70_dpdp x c f o h g G _ (q_effects c) K M LG DT IN HH) as (w & Hw & SP). rewrite HV in Hw. injection Hw as <-.
  apply (spread_flat _ _ _ _ _ SP); [|apply IN|exact R0]. intros r r' t Hr Hr'. now rewrite !NI.
Qed.
Print Assumptions C79_dpdp.
(** and with the numerical derivative, a feature without interactions. *)
Theorem C79_dpdp_numerical : forall x c g a limit ks1 fs o ks2 f scale, wf_reg c -> q_kind c = RDerPDP None -> q_model c = map g -> no_interaction g f (rows (q_data c)) a ->
  dt (q_data c) = Float64 -> inside c f o (rows (q_data c)) -> x_rt x 0 = 0 -> (forall q, 0 <= q -> 0 <= x_rt x q) -> scales_all c scale ->
  In f fs -> Forall (fun k => ~ xfits f k) ks2 -> snd (rfit x c (xrun x c limit qfresh ks1) fs o) = Ok tt ->
  not_split (snd (describe_subregions x c (xrun x c limit qfresh (ks1 ++ XCall (QFit fs o) :: ks2)) [f] true scale)).
Proof.
  intros x c g a limit ks1 fs o ks2 f scale W0 K M NI DT IN R0 RP SC HI HN HF. apply flat_fit; try assumption; [intros h Z E v HH; unfold heter_of in HH; rewrite K in HH; injection HH as <-; now apply pdp_nonneg|]. intros h v HH HV.
  destruct (C70_dpdp_numerical x c f o h g _ (q_effects c) K M DT IN HH) as (w & Hw & SP). rewrite HV in Hw. injection Hw as <-.
  apply (spread_flat _ _ _ _ _ SP); [|apply IN|exact R0]. intros r r' t Hr Hr'. now rewrite !NI.
Qed.
Print Assumptions C79_dpdp_numerical.

(** ** Refuted for RegionalPDP *)
(** x0 + 5 x1 has no interactions and its centred ICE curves coincide, but the feature x0 is split, whatever the
    centering asked for: the heterogeneity is that of the uncentred curves (C70). *)
Definition seen_splits (r : res (list description)) : nat := match r with Ok [Levels l] => length l | _ => 0 end.
Theorem C79_pdp_refuted : exists x c o, q_kind c = RPDP /\ q_model c = map (fun r => r@0 + Q2Qc 5 * r@1) /\
  no_interaction (fun r => r@0 + Q2Qc 5 * r@1) 0 (rows (q_data c)) (fun v => v) /\ fo_centering o = PyBool true /\ x_rt x 0 = 0 /\
  snd (rfit x c qfresh [0%nat] o) = Ok tt /\ seen_splits (snd (describe_subregions x c (qrun x c qfresh [QFit [0%nat] o]) [0%nat] true None)) = 1%nat.
Proof.
  exists ex_x, ex70, ex70_opts. split; [reflexivity|]. split; [reflexivity|]. split.
  { intros r v w Hr. assert (L : length r = 2%nat). { vm_compute in Hr. repeat (destruct Hr as [<-|Hr]; [reflexivity|]). destruct Hr. }
    destruct r as [|a [|b [|]]]; try discriminate L. unfold with_feature. simpl. ring. }
  split; [reflexivity|]. split; [reflexivity|]. split; computed.
Qed.
Print Assumptions C79_pdp_refuted.

(** ** Instances *)
(** x0^2 + x1 x2 on the data of C41's example: the hypotheses hold, the fit succeeds and finds splits, and none is important. *)
Definition ex79g (r : list Qc) : Qc := r@0 * r@0 + r@1 * r@2.
Definition ex79J (r : list Qc) : list Qc := [r@0 + r@0; r@2; r@1].
Definition ex79 (k : rkind) : rconfig := ex_get (rconstruct ex_x k (mkData Float64 3 ex_rows3) (map ex79g) None (PyStr "all") None (Some [Cont; Cat; Cat]) 4 None).
Definition ex79_opts : fitopts := mkFO (Q2Qc (1#10)) (Q2Qc (1 # 10)) 2 3 2 AllFeatures false (MFixed 2 (Some 0%nat) 15) (PyBool true) (PyStr "all") (PyInt 5) true.
Lemma ex79_additive k : rows (q_data (ex79 k)) = ex_rows3 -> no_interaction ex79g 0 (rows (q_data (ex79 k))) (fun v => v * v).
Proof.
  intros -> r v w Hr. assert (L : length r = 3%nat). { vm_compute in Hr. repeat (destruct Hr as [<-|Hr]; [reflexivity|]). destruct Hr. }
  destruct r as [|a [|b [|e [|]]]]; try discriminate L. unfold with_feature, ex79g. simpl. ring.
Qed.
Definition all_splits (r : res (regions * found * list split)) : nat := match r with Ok (_, Some (_, ss), _) => length ss | _ => 0 end.
Example C79_instance : no_interaction ex79g 0 (rows (q_data (ex79 RALE))) (fun v => v * v) /\ wf_reg (ex79 RALE) /\ some_bins (fo_binning ex79_opts) /\
  snd (rfit ex_x (ex79 RALE) qfresh [0%nat] ex79_opts) = Ok tt /\ all_splits (partition_of ex_x (ex79 RALE) 0 ex79_opts) = 2%nat /\
  snd (describe_subregions ex_x (ex79 RALE) (qrun ex_x (ex79 RALE) qfresh [QFit [0%nat] ex79_opts]) [0%nat] true None) = Ok [NoImportantSplits].
Proof.
  split; [now apply ex79_additive|]. split; [split; computed|]. split; [simpl; lia|]. split; [computed|]. split; computed.
Qed.
Example C79_dpdp_instance : let c := ex79 (RDerPDP None) in let cj := ex79 (RDerPDP (Some (map ex79J))) in
  no_interaction ex79g 0 (rows (q_data c)) (fun v => v * v) /\ inside c 0 ex79_opts (rows (q_data c)) /\
  (forall r v, In r (rows (q_data cj)) -> (ex79J (with_feature r 0 v))@0 = v + v) /\
  snd (rfit ex_x c qfresh [0%nat] ex79_opts) = Ok tt /\ snd (rfit ex_x cj qfresh [0%nat] ex79_opts) = Ok tt /\
  snd (describe_subregions ex_x cj (qrun ex_x cj qfresh [QFit [0%nat] ex79_opts]) [0%nat] true None) = Ok [NoImportantSplits].
Proof.
  cbv zeta. split; [now apply ex79_additive|].
  assert (LR : forall k, rows (q_data (ex79 k)) = ex_rows3 -> forall r, In r (rows (q_data (ex79 k))) -> length r = 3%nat /\ 0 <= r@0 <= 1).
  { intros k -> r Hr. vm_compute in Hr. repeat (destruct Hr as [<-|Hr]; [split; [reflexivity|split; vm_compute; discriminate]|]). destruct Hr. }
  split.
  { split; [|split; [computed|split; [computed|split; [simpl; lia|split; [computed|split; [vm_compute; discriminate|split; [vm_compute; lia|split; [left; reflexivity|]]]]]]]].
    - intros r Hr. exact (LR (RDerPDP None) eq_refl r Hr).
    - exists ZeroIntegral. split; [reflexivity|]. intros _. exists 5%nat. split; [reflexivity|lia]. }
  split.
  { intros r v Hr. apply (LR (RDerPDP (Some (map ex79J))) eq_refl) in Hr as [L _]. destruct r as [|a [|b [|e [|]]]]; try discriminate L. reflexivity. }
  split; [computed|]. split; computed.
Qed.
Definition ex79r : rconfig := ex_get (rconstruct ex_x (RRHALE (Some (map (fun r => [Q2Qc 2; r@2; r@1])))) (mkData Float64 3 ex_rows3) (map (fun r => r@0 + r@0 + r@1 * r@2)) None (PyStr "all") None (Some [Cont; Cat; Cat]) 4 None).
Example C79_rhale_instance : exists E, q_effects ex79r = Some E /\ (forall e, In e E -> e@0 = Q2Qc 2) /\ wf_reg ex79r /\
  snd (rfit ex_x ex79r qfresh [0%nat] ex79_opts) = Ok tt /\
  snd (describe_subregions ex_x ex79r (qrun ex_x ex79r qfresh [QFit [0%nat] ex79_opts]) [0%nat] true None) = Ok [NoImportantSplits].
Proof.
  exists (map (fun r => [Q2Qc 2; r@2; r@1]) ex_rows3). split; [reflexivity|]. split; [intros e He; apply in_map_iff in He as (r & <- & _); reflexivity|].
  split; [split; computed|]. split; computed.
Qed.
