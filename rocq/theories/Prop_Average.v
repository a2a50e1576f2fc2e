(** Property C85: a regional partition decomposes the PDP: the curve of the dataset is the weighted average of the curves of
    the subregions of any level, and the variance splits into the variances within and between the subregions. *)
From Verif Require Import Base Numpy Spec NumpyFacts Utils UtilsProofs LocalProofs Helpers HelpersProofs Binning GlobalALE ALEState GlobalPDP PDPProofs PDPFacts GlobalShap
  PartSpec Partition PartProofs PartSearch PartTree PartFacts PartNodes Regional RegProofs RegNodes RegPlotProofs HeterProofs Prop_PDP Prop_Regional Prop_Options.
Open Scope Qc_scope.
Open Scope list_scope.

(** [v r t] is the value at [t] of the ICE curve (RegionalPDP) or d-ICE curve (RegionalDerPDP) of the instance [r]; the
    model and the Jacobian work instance by instance. *)
Definition ice_of (c : rconfig) (f : nat) (v : list Qc -> Qc -> Qc) : Prop :=
  dt (q_data c) = Float64 /\ exists g, q_model c = map g /\
  match q_kind c with
  | RPDP => forall r t, v r t = g (with_feature r f t)
  | RDerPDP (Some J) => exists G, J = map G /\ (forall r, length r = dim (q_data c) -> length (G r) = dim (q_data c)) /\ forall r t, v r t = (G (with_feature r f t))@f
  | RDerPDP None => forall r t, v r t = (g (with_feature r f (t + Q2Qc (1 # 1000000))) - g (with_feature r f (t - Q2Qc (1 # 1000000)))) / Q2Qc (1 # 500000)
  | _ => False
  end.
Lemma pdp_global x pk X model g G f xs het out : row_object (mkPC pk model [] []) (dim X) g G -> wf_data X -> (f < dim X)%nat ->
  ('(gc, st) <- pconstruct (x_choice x) pk X model (PyStr "all") None ;; r <- snd (peval gc (x_rt x) st f xs het (PyBool false) false true) ;; Ok (GPdp r)) = Ok out ->
  rows X <> [] /\ out = GPdp (summary (x_rt x) false het (ice_matrix (pvalue pk (dt X) g G f) (rows X) xs)).
Proof.
  intros RO W Hf H. apply bind_ok in H as ([gc st] & HC & H). apply bind_ok in H as (r & HE & H). injection H as <-.
  pose proof (pconstruct_mins _ _ _ _ _ _ HC) as HM.
  assert (NE : rows X <> []).
  { intros E. unfold axis_limits_from_data in HM. rewrite E in HM. apply bind_ok in HM as (a & HM & _). destruct (dim X); [lia|]. simpl in HM. discriminate. }
  split; [exact NE|]. f_equal. destruct (axis_limits_ok X NE) as (m1 & m2 & EM & L1 & L2 & B). rewrite HM in EM. injection EM as <- <-.
  assert (EC : p_kind gc = pk /\ p_model gc = model /\ st = pfresh X).
  { unfold pconstruct in HC. simpl prep_nof_instances in HC. cbn [bind] in HC. rewrite select_rows_all in HC. cbn [bind] in HC. destruct X as [d n rs]. simpl in HC.
    apply bind_ok in HC as ([a b] & _ & HC). injection HC as <- <-. repeat split. }
  destruct EC as (EK & EMo & ->).
  assert (RO' : row_object gc (dim X) g G) by (unfold row_object in *; rewrite EK, EMo; exact RO).
  assert (LIM : limits_ok gc (dim X)) by (split; assumption).
  assert (LH : (p_mins gc)@f < (p_maxs gc)@f).
  { unfold peval in HE. change (prep_cent (PyBool false)) with (Ok NoCent) in HE. cbv iota in HE. unfold prefit in HE. cbn [ps_data pfresh ps_fitted] in HE.
    rewrite (proj2 (Nat.ltb_lt _ _) Hf) in HE. cbn [negb] in HE. destruct (pfit gc (pfresh X) [f] (PyBool false) default_pts true) as [st' [u|e]]; [|discriminate].
    cbn [snd] in HE. unfold peval_fitted in HE. rewrite !(getn_ok _ f 0) in HE by lia. cbn [bind] in HE. destruct (Qcltb (p_mins gc)@f (p_maxs gc)@f) eqn:E; [now apply Qcltb_lt|discriminate]. }
  rewrite (peval_fresh gc g G X RO' W LIM (x_rt x) f xs het (PyBool false) NoCent false true eq_refl Hf LH (or_introl eq_refl)) in HE. apply Ok_inj in HE. subst r.
  assert (WA : within gc [f] X = X).
  { unfold within. destruct X as [d n rs]. simpl in *. f_equal. apply filter_all. intros q Hq. destruct (B f Hf) as (C & _). destruct (C q Hq). rewrite andb_true_r. unfold in_limits. apply andb_true_iff. split; now apply Qcleb_le. }
  rewrite WA, EK. unfold shift_at. f_equal. apply centered_zero.
Qed.
Lemma class_value x c v f Z E xs het out : ice_of c f v -> (forall r, In r Z -> length r = dim (q_data c)) -> (f < dim (q_data c))%nat ->
  global_effect x (q_kind c) (as_data c Z) (q_model c) E (PyStr "all") f xs het (PyBool false) = Ok out ->
  Z <> [] /\ out = GPdp (summary (x_rt x) false het (map (fun t => map (fun r => v r t) Z) xs)).
Proof.
  intros (DT & g & HM & HK) W Hf H. unfold global_effect in H.
  assert (G0 : forall pk G, row_object (mkPC pk (q_model c) [] []) (dim (q_data c)) g G -> (forall r t, v r t = pvalue pk Float64 g G f r t) ->
    ('(gc, st) <- pconstruct (x_choice x) pk (as_data c Z) (q_model c) (PyStr "all") None ;; r <- snd (peval gc (x_rt x) st f xs het (PyBool false) false true) ;; Ok (GPdp r)) = Ok out ->
    Z <> [] /\ out = GPdp (summary (x_rt x) false het (map (fun t => map (fun r => v r t) Z) xs))).
  { intros pk G RO EV HH. destruct (pdp_global x pk (as_data c Z) (q_model c) g G f xs het out RO W Hf HH) as [NE ->]. split; [exact NE|]. do 2 f_equal. unfold ice_matrix. cbn [rows dt as_data].
    apply map_ext. intros t. apply map_ext. intros r. rewrite DT. symmetry. apply EV. }
  destruct (q_kind c) as [J| | |[J|]|]; try contradiction.
  - apply (G0 KPDP (fun r => r)); [split; [exact HM|exact I]|exact HK|exact H].
  - destruct HK as (G & -> & HL & HK). apply (G0 (KDer (Some (map G))) G); [split; [exact HM|split; [reflexivity|exact HL]]|exact HK|exact H].
  - apply (G0 (KDer None) (fun r => r)); [split; [exact HM|exact I]| |exact H]. intros r t. rewrite HK. unfold pvalue. rewrite step2. reflexivity.
Qed.

(** Averages over a partition. *)
Lemma average_partition {A} (v : A -> Qc) (X : list A) parts : Permutation (concat parts) X -> (forall P, In P parts -> P <> []) -> X <> [] ->
  mean (map v X) = sumq (map (fun P => qn (length P) / qn (length X) * mean (map v P)) parts).
Proof.
  intros HP NE NX. assert (HX : qn (length X) <> 0) by (apply qn_neq0; destruct X; simpl; [congruence|lia]).
  assert (S : sumq (map v X) = sumq (map (fun P => sumq (map v P)) parts)).
  { rewrite <- (sumq_perm _ _ (Permutation_map v HP)). clear. induction parts as [|P parts IH]; [reflexivity|]. simpl. rewrite map_app, sumq_app. now rewrite IH. }
  rewrite (sumq_map_ext _ (fun P => / qn (length X) * sumq (map v P))).
  - rewrite sumq_map_mul, <- S. unfold mean. rewrite map_length. unfold Qcdiv. ring.
  - intros P HI. rewrite <- (mean_mul_len (map v P)) by (intros E; apply map_eq_nil in E; exact (NE P HI E)). rewrite map_length. unfold Qcdiv. ring.
Qed.
Lemma variance_partition {A} (v : A -> Qc) (X : list A) parts : Permutation (concat parts) X -> (forall P, In P parts -> P <> []) -> X <> [] ->
  let m := mean (map v X) in
  variance (map v X) = sumq (map (fun P => qn (length P) / qn (length X) * (variance (map v P) + (mean (map v P) - m) * (mean (map v P) - m))) parts).
Proof.
  intros HP NE NX m. assert (HX : qn (length X) <> 0) by (apply qn_neq0; destruct X; simpl; [congruence|lia]).
  set (w := fun a => (v a - m) * (v a - m)).
  assert (V : variance (map v X) = mean (map w X)). { rewrite variance_eq. fold m. rewrite map_map, map_length. fold w. unfold mean at 1. rewrite map_length. reflexivity. }
  rewrite V, (average_partition w X parts HP NE NX). apply sumq_map_ext. intros P HI. f_equal.
  pose proof (NE P HI) as NP. assert (HQ : qn (length P) <> 0) by (apply qn_neq0; destruct P; simpl; [congruence|lia]).
  rewrite variance_eq, map_length, map_map. set (q := mean (map v P)).
  assert (EQ : sumq (map v P) = q * qn (length P)). { unfold q. rewrite <- (map_length v P). symmetry. apply mean_mul_len. intros E. apply map_eq_nil in E. contradiction. }
  unfold mean. rewrite map_length. 
  assert (D : sumq (map w P) = sumq (map (fun a => (v a - q) * (v a - q)) P) + qn (length P) * ((q - m) * (q - m))).
  { assert (S2 : forall k, sumq (map (fun a => (v a - k) * (v a - k)) P) = sumq (map (fun a => v a * v a) P) - Q2Qc 2 * k * sumq (map v P) + qn (length P) * (k * k)).
    { intros k. clear. induction P as [|a P IH]; [simpl; rewrite qn_0; ring|]. cbn [map length]. rewrite !sumq_cons, IH, qn_S. replace (Q2Qc 2) with (1 + 1) by (apply Qc_is_canon; reflexivity). ring. }
    unfold w. rewrite (S2 m), (S2 q), EQ. replace (Q2Qc 2) with (1 + 1) by (apply Qc_is_canon; reflexivity). ring. }
  rewrite D. field. exact HQ.
Qed.


Lemma effects_none x k X model E nof al types cl names c : rconstruct x k X model E nof al types cl names = Ok c ->
  match k with RRHALE _ => False | _ => True end -> q_effects c = None.
Proof.
  intros H K. unfold rconstruct in H. apply bind_ok in H as (e & H0 & H). apply bind_ok in H as ([n idx] & _ & H). apply bind_ok in H as (rs & _ & H). apply bind_ok in H as (es & H1 & H). apply bind_ok in H as ([mins maxs] & _ & H).
  injection H as <-. cbn [q_effects]. destruct k; try contradiction; injection H0 as <-; now injection H1 as <-.
Qed.

Section C85.
Context (x : externals) (c : rconfig) (ks1 : list qcall) (fs : list nat) (o : fitopts) (ks2 : list qcall) (f : nat).
Context (v : list Qc -> Qc -> Qc) (g : regions) (r : root) (ss imp : list split).
Context (ICE : ice_of c f v) (WD : wf_data (q_data c)) (WR : wf_reg c) (EN : q_effects c = None) (HFD : (f < dim (q_data c))%nat) (HI : In f fs).
Context (N1 : Forall (fun k => ~ scaled_plot f k) ks1) (N2 : Forall (fun k => ~ RegProofs.fits f k) ks2).
Context (HF : snd (rfit x c (qrun x c qfresh ks1) fs o) = Ok tt) (HP : partition_of x c f o = Ok (g, Some (r, ss), imp)).
Context (SM : (length (rows (q_data c)) <= 300)%nat).
Let st := qrun x c qfresh (ks1 ++ QFit fs o :: ks2).
Let X := rows (q_data c).
Lemma region_rows cs p q : In q (region X cs p) -> In q X.
Proof. unfold region. intros H. now apply filter_In in H. Qed.
Lemma node_curve l j xs het out : (l <= length imp)%nat -> (j < 2 ^ l)%nat -> snd (reval x c st f (2 ^ l - 1 + j) xs het (PyBool false)) = Ok out ->
  region X (conditions imp) (nth j (paths l) []) <> [] /\
  out = GPdp (summary (x_rt x) false het (map (fun t => map (fun q => v q t) (region X (conditions imp) (nth j (paths l) []))) xs)).
Proof.
  intros Hl Hj H. destruct (C49_nodes_partial x c ks1 fs o ks2 f xs het (PyBool false) (PyBool false) g r ss imp WR HI N1 N2 HF HP eq_refl) as [HN _].
  specialize (HN l j Hl Hj (or_introl EN)). cbv zeta in HN. fold X in HN. fold st in HN. 
  assert (KE : kept_entirely (q_kind c) (length (region X (conditions imp) (nth j (paths l) [])))).
  { assert (L : (length (region X (conditions imp) (nth j (paths l) [])) <= 300)%nat) by (eapply Nat.le_trans; [unfold region; apply filter_length_le|exact SM]).
    destruct ICE as (_ & g0 & _ & HK). destruct (q_kind c); try contradiction; exact L. }
  rewrite (HN KE) in H. apply (class_value x c v f _ _ xs het out ICE) in H; [exact H| |exact HFD]. intros q Hq. apply WD. exact (region_rows _ _ _ Hq).
Qed.
Lemma nth_rows {A B} (F : A -> B) (l : list A) i d d' : (i < length l)%nat -> nth i (map F l) d' = F (nth i l d).
Proof. intros H. rewrite nth_indep with (d' := F d) by now rewrite map_length. apply map_nth. Qed.
Lemma root_region cs : region X cs (nth 0 (paths 0) []) = X.
Proof. unfold region. simpl. apply filter_every. intros a _. unfold inside. now rewrite combine_nil. Qed.
Lemma parts_ok l : (l <= length imp)%nat -> Permutation (concat (map (fun j => region X (conditions imp) (nth j (paths l) [])) (seq 0 (2 ^ l)))) X.
Proof.
  intros Hl. rewrite <- (map_map (fun j => nth j (paths l) []) (region X (conditions imp))). rewrite <- paths_length, map_nth_seq. apply region_partition. unfold conditions. now rewrite map_length.
Qed.
Lemma parts_full l xs het : (l <= length imp)%nat -> (forall j, (j < 2 ^ l)%nat -> exists out, snd (reval x c st f (2 ^ l - 1 + j) xs het (PyBool false)) = Ok out) ->
  forall P, In P (map (fun j => region X (conditions imp) (nth j (paths l) [])) (seq 0 (2 ^ l))) -> P <> [].
Proof. intros Hl HJ P HPn. apply in_map_iff in HPn as (j & <- & Hj). apply in_seq in Hj. destruct (HJ j (proj2 Hj)) as [out HO]. exact (proj1 (node_curve l j xs het _ Hl (proj2 Hj) HO)). Qed.
Lemma some_values (L : Mat) t : L <> [] -> map (fun q => v q t) L <> [].
Proof. intros H E. apply map_eq_nil in E. contradiction. Qed.
Lemma average_nodes l xs y0 ys i : (l <= length imp)%nat -> snd (reval x c st f 0 xs false (PyBool false)) = Ok (GPdp (OMean y0)) ->
  (forall j, (j < 2 ^ l)%nat -> snd (reval x c st f (2 ^ l - 1 + j) xs false (PyBool false)) = Ok (GPdp (OMean (ys j)))) -> (i < length xs)%nat ->
  exists m, (forall j, (j < 2 ^ l)%nat -> nth i (ys j) None = Some (m j)) /\
    nth i y0 None = Some (sumq (map (fun j => qn (length (region X (conditions imp) (nth j (paths l) []))) / qn (length X) * m j) (seq 0 (2 ^ l)))).
Proof.
  intros Hl H0 HJ Hi. set (R := fun j => region X (conditions imp) (nth j (paths l) [])).
  exists (fun j => mean (map (fun q => v q xs@i) (R j))). split.
  - intros j Hj. destruct (node_curve l j xs false _ Hl Hj (HJ j Hj)) as [NE E]. fold (R j) in NE, E. injection E as ->. unfold row_means. rewrite map_map, (nth_rows _ xs i 0) by exact Hi.
    apply np_mean_some. now apply some_values.
  - destruct (node_curve 0 0 xs false _ ltac:(lia) ltac:(simpl; lia) H0) as [NE E]. rewrite root_region in NE, E. injection E as ->.
    unfold row_means. rewrite map_map, (nth_rows _ xs i 0) by exact Hi.
    pose proof (average_partition (fun q => v q xs@i) X (map R (seq 0 (2 ^ l))) (parts_ok l Hl) (parts_full l xs false Hl ltac:(intros j Hj; eexists; exact (HJ j Hj))) NE) as AV. rewrite map_map in AV.
    rewrite np_mean_some by now apply some_values. f_equal. exact AV.
Qed.
Lemma variance_nodes l xs y0 s0 ys zs i : (l <= length imp)%nat -> snd (reval x c st f 0 xs true (PyBool false)) = Ok (GPdp (OMeanStd y0 s0)) ->
  (forall j, (j < 2 ^ l)%nat -> snd (reval x c st f (2 ^ l - 1 + j) xs true (PyBool false)) = Ok (GPdp (OMeanStd (ys j) (zs j)))) -> (i < length xs)%nat ->
  let w := fun j => qn (length (region X (conditions imp) (nth j (paths l) []))) / qn (length X) in
  exists m V m0, (forall j, (j < 2 ^ l)%nat -> nth i (ys j) None = Some (m j) /\ nth i (zs j) None = Some (x_rt x (V j)) /\
       V j = variance (map (fun q => v q xs@i) (region X (conditions imp) (nth j (paths l) [])))) /\
    m0 = sumq (map (fun j => w j * m j) (seq 0 (2 ^ l))) /\ nth i y0 None = Some m0 /\
    nth i s0 None = Some (x_rt x (sumq (map (fun j => w j * (V j + (m j - m0) * (m j - m0))) (seq 0 (2 ^ l))))).
Proof.
  intros Hl H0 HJ Hi w. set (R := fun j => region X (conditions imp) (nth j (paths l) [])).
  exists (fun j => mean (map (fun q => v q xs@i) (R j))), (fun j => variance (map (fun q => v q xs@i) (R j))), (mean (map (fun q => v q xs@i) X)).
  destruct (node_curve 0 0 xs true _ ltac:(lia) ltac:(simpl; lia) H0) as [NE E]. rewrite root_region in NE, E. injection E as -> ->.
  pose proof (parts_full l xs true Hl ltac:(intros j Hj; eexists; exact (HJ j Hj))) as PF.
  split; [|split; [|split]].
  - intros j Hj. destruct (node_curve l j xs true _ Hl Hj (HJ j Hj)) as [NJ E]. fold (R j) in NJ, E. injection E as -> ->. unfold row_means, row_stds. rewrite !map_map, !(nth_rows _ xs i 0) by exact Hi.
    rewrite np_mean_some, np_var_some by now apply some_values. repeat split.
  - pose proof (average_partition (fun q => v q xs@i) X (map R (seq 0 (2 ^ l))) (parts_ok l Hl) PF NE) as AV. rewrite map_map in AV. exact AV.
  - unfold row_means. rewrite map_map, (nth_rows _ xs i 0) by exact Hi. apply np_mean_some. now apply some_values.
  - unfold row_stds. rewrite map_map, (nth_rows _ xs i 0) by exact Hi. rewrite np_var_some by now apply some_values. cbn [option_map]. do 2 f_equal.
    pose proof (variance_partition (fun q => v q xs@i) X (map R (seq 0 (2 ^ l))) (parts_ok l Hl) PF NE) as AV. cbv zeta in AV. rewrite map_map in AV. exact AV.
Qed.
End C85.

(** * C85  The PDP of the dataset is the average of the PDPs of the subregions, weighted by their shares of the instances *)
Theorem C85_mean_partial : forall x k X0 model nof al types cl names c v ks1 fs o ks2 f g r ss imp l xs y0 ys i,
  rconstruct x k X0 model None nof al types cl names = Ok c -> wf_reg c -> wf_data (q_data c) -> ice_of c f v -> (f < dim X0)%nat -> In f fs ->
  (length (rows (q_data c)) <= 300)%nat ->
  Forall (fun k => ~ scaled_plot f k) ks1 -> Forall (fun k => ~ RegProofs.fits f k) ks2 ->
  snd (rfit x c (qrun x c qfresh ks1) fs o) = Ok tt -> partition_of x c f o = Ok (g, Some (r, ss), imp) ->
  let st := qrun x c qfresh (ks1 ++ QFit fs o :: ks2) in let X := rows (q_data c) in
  (l <= length imp)%nat -> snd (reval x c st f 0 xs false (PyBool false)) = Ok (GPdp (OMean y0)) ->
  (forall j, (j < 2 ^ l)%nat -> snd (reval x c st f (2 ^ l - 1 + j) xs false (PyBool false)) = Ok (GPdp (OMean (ys j)))) -> (i < length xs)%nat ->
  let w := fun j => qn (length (region X (conditions imp) (nth j (paths l) []))) / qn (length X) in
  exists m, (forall j, (j < 2 ^ l)%nat -> nth i (ys j) None = Some (m j)) /\ nth i y0 None = Some (sumq (map (fun j => w j * m j) (seq 0 (2 ^ l)))).
Proof.
  intros x k X0 model nof al types cl names c v ks1 fs o ks2 f g r ss imp l xs y0 ys i HC WR WD ICE Hf HI SM N1 N2 HF HP st X Hl H0 HJ Hi w.
  pose proof (C84_construct _ _ _ _ _ _ _ _ _ _ _ HC) as (EK & _ & _ & ED & _).
  apply (average_nodes x c ks1 fs o ks2 f v g r ss imp ICE WD WR) with (xs := xs); try assumption; [|now rewrite ED].
  eapply effects_none; [exact HC|]. destruct ICE as (_ & g0 & _ & HK). rewrite EK in HK. destruct k; trivial.
Qed.
Print Assumptions C85_mean_partial.
(** ... and the variance of the dataset is the variance within the subregions plus the variance between them (law of total
    variance); [x_rt] is the square root. *)
Theorem C85_variance_partial : forall x k X0 model nof al types cl names c v ks1 fs o ks2 f g r ss imp l xs y0 s0 ys zs i,
  rconstruct x k X0 model None nof al types cl names = Ok c -> wf_reg c -> wf_data (q_data c) -> ice_of c f v -> (f < dim X0)%nat -> In f fs ->
  (length (rows (q_data c)) <= 300)%nat ->
  Forall (fun k => ~ scaled_plot f k) ks1 -> Forall (fun k => ~ RegProofs.fits f k) ks2 ->
  snd (rfit x c (qrun x c qfresh ks1) fs o) = Ok tt -> partition_of x c f o = Ok (g, Some (r, ss), imp) ->
  let st := qrun x c qfresh (ks1 ++ QFit fs o :: ks2) in let X := rows (q_data c) in
  (l <= length imp)%nat -> snd (reval x c st f 0 xs true (PyBool false)) = Ok (GPdp (OMeanStd y0 s0)) ->
  (forall j, (j < 2 ^ l)%nat -> snd (reval x c st f (2 ^ l - 1 + j) xs true (PyBool false)) = Ok (GPdp (OMeanStd (ys j) (zs j)))) -> (i < length xs)%nat ->
  let w := fun j => qn (length (region X (conditions imp) (nth j (paths l) []))) / qn (length X) in
  exists m V m0, (forall j, (j < 2 ^ l)%nat -> nth i (ys j) None = Some (m j) /\ nth i (zs j) None = Some (x_rt x (V j)) /\
       V j = variance (map (fun q => v q xs@i) (region X (conditions imp) (nth j (paths l) [])))) /\
    m0 = sumq (map (fun j => w j * m j) (seq 0 (2 ^ l))) /\ nth i y0 None = Some m0 /\
    nth i s0 None = Some (x_rt x (sumq (map (fun j => w j * (V j + (m j - m0) * (m j - m0))) (seq 0 (2 ^ l))))).
Proof.
  intros x k X0 model nof al types cl names c v ks1 fs o ks2 f g r ss imp l xs y0 s0 ys zs i HC WR WD ICE Hf HI SM N1 N2 HF HP st X Hl H0 HJ Hi.
  pose proof (C84_construct _ _ _ _ _ _ _ _ _ _ _ HC) as (EK & _ & _ & ED & _).
  apply (variance_nodes x c ks1 fs o ks2 f v g r ss imp ICE WD WR) with (xs := xs); try assumption; [|now rewrite ED].
  eapply effects_none; [exact HC|]. destruct ICE as (_ & g0 & _ & HK). rewrite EK in HK. destruct k; trivial.
Qed.
Print Assumptions C85_variance_partial.
(** The same for the global classes and any way of cutting the dataset into non-empty pieces. *)
Theorem C85_pieces : forall ch rt pk model g G d n f xs X parts y ys i, row_object (mkPC pk model [] []) n g G -> (f < n)%nat ->
  let D := fun Z => mkData d n Z in
  let curve := fun Z => '(gc, st) <- pconstruct ch pk (D Z) model (PyStr "all") None ;; snd (peval gc rt st f xs false (PyBool false) false true) in
  wf_data (D X) -> Permutation (concat parts) X -> curve X = Ok (OMean y) -> (forall j, (j < length parts)%nat -> curve (nth j parts []) = Ok (OMean (ys j))) -> (i < length xs)%nat ->
  exists m, (forall j, (j < length parts)%nat -> nth i (ys j) None = Some (m j)) /\
    nth i y None = Some (sumq (map (fun j => qn (length (nth j parts [])) / qn (length X) * m j) (seq 0 (length parts)))).
Proof.
  intros ch rt pk model g G d n f xs X parts y ys i RO Hf D curve W HP HY HJ Hi. set (x := mkX rt ch (fun _ => Raise ValueError) (fun l => seq 0 (length l)) (fun _ _ => Raise ValueError) (fun _ => ""%string)).
  assert (K : forall Z z, wf_data (D Z) -> curve Z = Ok (OMean z) -> Z <> [] /\ z = row_means (map (fun t => map (fun q => pvalue pk d g G f q t) Z) xs)).
  { intros Z z WZ HZ. destruct (pdp_global x pk (D Z) model g G f xs false (GPdp (OMean z)) RO WZ Hf) as [NZ E].
    - unfold curve in HZ. cbn [x_choice x_rt x]. destruct (pconstruct ch pk (D Z) model (PyStr "all") None) as [[gc st]|e]; [|discriminate]. cbn [bind] in HZ |- *. now rewrite HZ.
    - split; [exact NZ|]. injection E as ->. reflexivity. }
  assert (WP : forall j, (j < length parts)%nat -> wf_data (D (nth j parts []))).
  { intros j Hj q Hq. apply W. eapply Permutation_in; [exact HP|]. apply in_concat. exists (nth j parts []). split; [now apply nth_In|exact Hq]. }
  set (vv := fun q => pvalue pk d g G f q xs@i).
  exists (fun j => mean (map vv (nth j parts []))). split.
  - intros j Hj. destruct (K _ _ (WP j Hj) (HJ j Hj)) as [NZ ->]. unfold row_means. rewrite map_map, (nth_rows _ xs i 0) by exact Hi. apply np_mean_some. intros E. apply map_eq_nil in E. contradiction.
  - destruct (K _ _ W HY) as [NZ ->]. unfold row_means. rewrite map_map, (nth_rows _ xs i 0) by exact Hi. rewrite np_mean_some by (intros E; apply map_eq_nil in E; contradiction). f_equal.
    pose proof (average_partition vv X parts HP) as AV. rewrite <- (map_map (fun j => nth j parts []) (fun P => qn (length P) / qn (length X) * mean (map vv P))), map_nth_seq. apply AV; [|exact NZ].
    intros P HI. apply (In_nth _ _ []) in HI as (j & Hj & <-). exact (proj1 (K _ _ (WP j Hj) (HJ j Hj))).
Qed.
Print Assumptions C85_pieces.

(** The theorems apply: eight instances, the partition of C48_instance; the root value is the weighted average. *)
Definition ex85 := ex_c 8.
Definition ex85o := ex_opts (Q2Qc (1#10)) 1 2.
Example C85_instance : (exists c, ex_obj RPDP 8 = Ok c /\ ex85 = c) /\ ice_of ex85 0 (fun q t => t * q@1) /\ wf_reg ex85 /\ wf_data (q_data ex85) /\ (length (rows (q_data ex85)) <= 300)%nat /\
  snd (rfit ex_x ex85 qfresh [0%nat] ex85o) = Ok tt /\
  (exists g r ss imp, partition_of ex_x ex85 0 ex85o = Ok (g, Some (r, ss), imp) /\ length imp = 1%nat /\
    map (fun p => length (region (rows (q_data ex85)) (conditions imp) p)) (paths 1) = [3; 5]%nat) /\
  let st := fst (rfit ex_x ex85 qfresh [0%nat] ex85o) in
  map (fun i => shown (snd (reval ex_x ex85 st 0 i (qs [1; 2]) true (PyBool false)))) [0; 1; 2]%nat =
    [Ok ([Some (5#8); Some (5#4)], Some [Some (15#64); Some (15#16)]); Ok ([Some 0; Some 0], Some [Some 0; Some 0]); Ok ([Some 1; Some 2], Some [Some 0; Some 0])]%Q.
Proof.
  split. { destruct (is_ok_exists (ex_obj RPDP 8) ltac:(computed)) as [c Hc]. exists c. split; [exact Hc|]. unfold ex85, ex_c. now rewrite Hc. }
  split. { assert (A : dt (q_data ex85) = Float64) by computed. assert (B : q_kind ex85 = RPDP) by computed. split; [exact A|]. exists (fun r => r@0 * r@1). split; [computed|]. rewrite B.
    intros r t. destruct r as [|a [|b r]]; reflexivity || (unfold with_feature; simpl; ring). }
  split. { assert (B1 : q_effects ex85 = None) by computed. split; [rewrite B1; exact I|]. apply Nat.leb_le. computed. }
  split. { assert (B : forallb (fun r => Nat.eqb (length r) (dim (q_data ex85))) (rows (q_data ex85)) = true) by computed. intros r Hr. apply Nat.eqb_eq. rewrite forallb_forall in B. now apply B. }
  split. { apply Nat.leb_le. computed. }
  split; [computed|]. split; [|computed].
  assert (HP : exists g r ss imp, partition_of ex_x ex85 0 ex85o = Ok (g, Some (r, ss), imp)).
  { assert (B : match partition_of ex_x ex85 0 ex85o with Ok (_, Some _, _) => true | _ => false end = true) by computed.
    destruct (partition_of _ _ _ _) as [[[g [[r ss]|]] imp]|]; try discriminate. now exists g, r, ss, imp. }
  destruct HP as (g & r & ss & imp & HP).
  assert (IM : imp = match partition_of ex_x ex85 0 ex85o with Ok (_, _, i) => i | _ => [] end) by now rewrite HP.
  exists g, r, ss, imp. split; [exact HP|]. rewrite IM. split; computed.
Qed.
