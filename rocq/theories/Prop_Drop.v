(** Property C86: cutting a subregion in two does not increase the heterogeneity RegionalPDP and RegionalDerPDP report. *)
From Verif Require Import Base Numpy Spec NumpyFacts Utils UtilsProofs LocalProofs Helpers HelpersProofs Binning DPProofs GlobalALE ALEState GlobalPDP PDPProofs PDPFacts GlobalShap
  PartSpec Partition PartProofs PartSearch PartTree PartFacts PartNodes Regional RegProofs RegNodes RegPlotProofs HeterProofs Prop_PDP Prop_Regional Prop_Report Prop_Options Prop_Average.
Open Scope Qc_scope.
Open Scope list_scope.

(** What is used of the square root: it is increasing and concave. *)
Definition root_like (rt : Qc -> Qc) : Prop :=
  (forall a b, 0 <= a -> a <= b -> rt a <= rt b) /\
  (forall w a b, 0 <= w -> w <= 1 -> 0 <= a -> 0 <= b -> w * rt a + (1 - w) * rt b <= rt (w * a + (1 - w) * b)).
(** The two pieces have instances at both ends of the range of the feature. *)
Definition same_range (Z P : Mat) (f : nat) : Prop := forall lo hi, extrema Z f lo hi -> extrema P f lo hi.

Lemma extrema_unique Z f lo hi lo' hi' : extrema Z f lo hi -> extrema Z f lo' hi' -> lo = lo' /\ hi = hi'.
Proof.
  intros (A & (r1 & I1 & <-) & (r2 & I2 & <-)) (B & (r3 & I3 & <-) & (r4 & I4 & <-)).
  split; apply Qcle_antisym; try apply A; try apply B; assumption.
Qed.
Lemma extrema_exist (Z : Mat) f : Z <> [] -> exists lo hi, extrema Z f lo hi.
Proof.
  induction Z as [|a Z IH]; [congruence|]. intros _. destruct Z as [|b Z].
  - exists (a@f), (a@f). split; [intros r [<-|[]]; split; apply Qcle_refl|]. split; exists a; split; simpl; auto.
  - destruct (IH ltac:(discriminate)) as (lo & hi & B & (r1 & I1 & E1) & (r2 & I2 & E2)). clear IH.
    exists (if Qcleb a@f lo then a@f else lo), (if Qcleb hi a@f then a@f else hi).
    assert (L1 : (if Qcleb a@f lo then a@f else lo) <= a@f /\ (if Qcleb a@f lo then a@f else lo) <= lo).
    { destruct (Qcleb a@f lo) eqn:C; [apply Qcleb_le in C; split; [apply Qcle_refl|exact C]|apply Qcleb_gt in C; split; [now apply Qclt_le_weak|apply Qcle_refl]]. }
    assert (L2 : a@f <= (if Qcleb hi a@f then a@f else hi) /\ hi <= (if Qcleb hi a@f then a@f else hi)).
    { destruct (Qcleb hi a@f) eqn:C; [apply Qcleb_le in C; split; [apply Qcle_refl|exact C]|apply Qcleb_gt in C; split; [now apply Qclt_le_weak|apply Qcle_refl]]. }
    split; [|split].
    + intros r [<-|Hr]; [split; [apply L1|apply L2]|]. destruct (B r Hr). split; eapply Qcle_trans; [apply L1|assumption|eassumption|apply L2].
    + destruct (Qcleb a@f lo); [exists a; split; [now left|reflexivity]|exists r1; split; [now right|exact E1]].
    + destruct (Qcleb hi a@f); [exists a; split; [now left|reflexivity]|exists r2; split; [now right|exact E2]].
Qed.
Lemma spread_drop rt curve Z P Q f v p q : root_like rt -> Permutation (P ++ Q) Z -> P <> [] -> Q <> [] -> same_range Z P f -> same_range Z Q f ->
  spread rt curve Z f v -> spread rt curve P f p -> spread rt curve Q f q ->
  qn (length P) / qn (length Z) * p + qn (length Q) / qn (length Z) * q <= v.
Proof.
  intros (RM & RC) HP NP NQ SP SQ (lo & hi & EX & ->) (lo1 & hi1 & EX1 & ->) (lo2 & hi2 & EX2 & ->).
  destruct (extrema_unique _ _ _ _ _ _ EX1 (SP _ _ EX)) as [-> ->]. destruct (extrema_unique _ _ _ _ _ _ EX2 (SQ _ _ EX)) as [-> ->].
  set (g := linspace lo hi 10). assert (NG : g <> []) by (unfold g; intros E; apply (f_equal (@length _)) in E; rewrite linspace_length in E; discriminate).
  assert (NZ : Z <> []) by (intros ->; apply Permutation_sym, Permutation_nil in HP; destruct P; [congruence|discriminate]).
  assert (LZ : (length P + length Q = length Z)%nat) by (rewrite <- app_length; now apply Permutation_length).
  assert (HZ : 0 < qn (length Z)) by (apply qn_pos; destruct Z; simpl; [congruence|lia]).
  set (w := qn (length P) / qn (length Z)).
  assert (EW : qn (length Q) / qn (length Z) = 1 - w). { unfold w. rewrite <- LZ, qn_add in *. field. intros E. rewrite E in HZ. discriminate. }
  assert (W0 : 0 <= w) by (unfold w, Qcdiv; apply Qcmult_le_0; [apply qn_nonneg|apply Qclt_le_weak, Qcinv_pos, HZ]).
  assert (W1 : 0 <= 1 - w) by (rewrite <- EW; unfold Qcdiv; apply Qcmult_le_0; [apply qn_nonneg|apply Qclt_le_weak, Qcinv_pos, HZ]).
  rewrite EW, <- mean_linear by exact NG.
  assert (ML : forall (a b : Qc -> Qc), (forall t, a t <= b t) -> mean (map a g) <= mean (map b g)).
  { intros a b HL. unfold mean. rewrite !map_length. unfold Qcdiv. apply Qcmult_le_compat_r; [apply sumq_le; auto|]. apply Qclt_le_weak, Qcinv_pos, qn_pos. destruct g; simpl; [congruence|lia]. }
  apply ML. intros t. set (V := fun L : Mat => variance (map (fun r => curve r t) L)).
  change (w * rt (V P) + (1 - w) * rt (V Q) <= rt (V Z)).
  eapply Qcle_trans; [apply RC; [exact W0|qlra|apply variance_nonneg'|apply variance_nonneg']|].
  apply RM. { apply Qcle_trans with (0 + 0); [discriminate|]. apply Qcplus_le_compat; apply Qcmult_le_0; try assumption; apply variance_nonneg'. }
  pose proof (variance_partition (fun r => curve r t) Z [P; Q]) as VP. cbn [concat app] in VP. rewrite app_nil_r in VP. cbv zeta in VP.
  specialize (VP HP ltac:(intros L [<-|[<-|[]]]; assumption) NZ). fold (V Z) in VP. rewrite VP. cbn [map]. rewrite !sumq_cons. fold (V P) (V Q) w. rewrite EW.
  set (dp := mean (map (fun r => curve r t) P) - _). set (dq := mean (map (fun r => curve r t) Q) - _).
  assert (D1 : 0 <= w * (dp * dp)) by (apply Qcmult_le_0; [exact W0|apply Qcsq_nonneg]).
  assert (D2 : 0 <= (1 - w) * (dq * dq)) by (apply Qcmult_le_0; [exact W1|apply Qcsq_nonneg]).
  replace (w * (V P + dp * dp) + ((1 - w) * (V Q + dq * dq) + sumq [])) with (w * V P + (1 - w) * V Q + w * (dp * dp) + (1 - w) * (dq * dq)) by (unfold sumq; simpl; ring).
  qlra.
Qed.
(** [h] reports the spread of the ICE (d-ICE) curves. *)
Lemma heter_spread x c f o h v Z E : ice_of c f v -> Prop_Report.inside c f o Z -> heter_of x c f o = Ok h -> exists u, h Z E = Ok u /\ spread (x_rt x) v Z f u.
Proof.
  intros (DT & g & HM & HK) IN HH.
  assert (EXT : forall a b u, (forall r t, a r t = b r t) -> spread (x_rt x) a Z f u -> spread (x_rt x) b Z f u).
  { intros a b u EQ (lo & hi & EX & ->). exists lo, hi. split; [exact EX|]. f_equal. apply map_ext. intros t. do 2 f_equal. apply map_ext. intros r. apply EQ. }
  destruct (q_kind c) as [J| | |[J|]|] eqn:K; try contradiction.
  - destruct (C70_pdp x c f o h g Z E K HM DT IN HH) as (u & HU & SP). exists u. split; [exact HU|]. eapply EXT; [|exact SP]. intros r t. symmetry. apply HK.
  - destruct HK as (G & -> & HL & HK). destruct (C70_dpdp x c f o h g G Z E K HM HL DT IN HH) as (u & HU & SP). exists u. split; [exact HU|]. eapply EXT; [|exact SP]. intros r t. symmetry. apply HK.
  - destruct (C70_dpdp_numerical x c f o h g Z E K HM DT IN HH) as (u & HU & SP). exists u. split; [exact HU|]. eapply EXT; [|exact SP]. intros r t. symmetry. apply HK.
Qed.

(** * C86  Cutting instances in two does not increase the heterogeneity *)
(** [h] is the heterogeneity function the search minimises; [Z] is cut in [P] and [Q]. *)
Theorem C86_cut_partial : forall x c f o h v Z P Q E E1 E2 u p q, ice_of c f v -> heter_of x c f o = Ok h -> root_like (x_rt x) ->
  Permutation (P ++ Q) Z -> Prop_Report.inside c f o Z -> Prop_Report.inside c f o P -> Prop_Report.inside c f o Q -> same_range Z P f -> same_range Z Q f ->
  h Z E = Ok u -> h P E1 = Ok p -> h Q E2 = Ok q ->
  qn (length P) / qn (length Z) * p + qn (length Q) / qn (length Z) * q <= u.
Proof.
  intros x c f o h v Z P Q E E1 E2 u p q ICE HH RL HP IZ IP IQ SP SQ HU H1 H2.
  destruct (heter_spread x c f o h v Z E ICE IZ HH) as (u' & HU' & S0). rewrite HU in HU'. apply Ok_inj in HU'. subst u'.
  destruct (heter_spread x c f o h v P E1 ICE IP HH) as (p' & HP' & S1). rewrite H1 in HP'. apply Ok_inj in HP'. subst p'.
  destruct (heter_spread x c f o h v Q E2 ICE IQ HH) as (q' & HQ' & S2). rewrite H2 in HQ'. apply Ok_inj in HQ'. subst q'.
  eapply spread_drop; try eassumption; [apply IP|apply IQ].
Qed.
Print Assumptions C86_cut_partial.

Lemma children_perm X cs p : (length p < length cs)%nat -> Permutation (region X cs (p ++ [true]) ++ region X cs (p ++ [false])) (region X cs p).
Proof.
  intros H. set (n := length p).
  rewrite <- (region_firstn X cs (p ++ [true]) (S n)), <- (region_firstn X cs (p ++ [false]) (S n)) by (rewrite app_length; simpl; unfold n; lia).
  assert (ES : firstn (S n) cs = firstn n cs ++ [nth n cs (0%nat, Cont, 0)]).
  { unfold n. clear - H. revert cs H. induction p as [|b p IH]; intros [|c cs] H; simpl in *; try lia; [reflexivity|]. f_equal. apply IH. lia. }
  rewrite ES. assert (LP : length p = length (firstn n cs)) by (rewrite firstn_length; unfold n; lia).
  rewrite !region_app by assumption. rewrite region_firstn by (unfold n; lia). symmetry. set (c := nth n cs _).
  rewrite (filter_ext_in' (fun r => Bool.eqb (satisfies c r) true) (satisfies c)) by (intros; apply eqb_true_id).
  rewrite (filter_ext_in' (fun r => Bool.eqb (satisfies c r) false) (fun r => negb (satisfies c r))) by (intros; apply eqb_false_negb).
  apply partition_perm.
Qed.
(** The weighted heterogeneity of a level of the partition is not larger than the one of the level above. *)
Theorem C86_levels_partial : forall x c f o g r ss imp v h l u w, partition_of x c f o = Ok (g, Some (r, ss), imp) -> ice_of c f v -> heter_of x c f o = Ok h -> root_like (x_rt x) ->
  let X := rows (q_data c) in let cs := conditions ss in
  (l < length ss)%nat ->
  (forall p, In p (paths l) \/ In p (paths (S l)) -> Prop_Report.inside c f o (region X cs p) /\ same_range X (region X cs p) f) ->
  level_heterogeneity h X (q_effects c) cs l u -> level_heterogeneity h X (q_effects c) cs (S l) w -> w <= u.
Proof.
  intros x c f o g r ss imp v h l u w HPn ICE HH RL X cs Hl HR (hs & F1 & ->) (ks & F2 & ->).
  assert (NX : X <> []). { destruct (paths l) as [|p0 pl] eqn:EP; [pose proof (paths_length l) as L; rewrite EP in L; simpl in L; pose proof (two_pow_pos l); lia|].
    destruct (HR p0 (or_introl (or_introl eq_refl))) as [IN _]. destruct IN as (_ & _ & _ & _ & _ & NE & _). intros E. apply NE. unfold region. now rewrite E. }
  assert (HX : 0 < qn (length X)) by (apply qn_pos; destruct X; simpl; [congruence|lia]).
  set (W := fun q : list bool * Qc => qn (length (region X cs (fst q))) / qn (length X) * snd q).
  assert (LEN : forall p, In p (paths l) -> (length p < length cs)%nat). { intros p Hp. apply paths_len in Hp. unfold cs, conditions. rewrite map_length. lia. }
  assert (HR' : forall p, In p (paths l) -> forall q, In q [p; p ++ [true]; p ++ [false]] -> Prop_Report.inside c f o (region X cs q) /\ same_range X (region X cs q) f).
  { intros p Hp q [<-|[<-|[<-|[]]]]; apply HR; [now left| |]; right; rewrite paths_S; apply in_flat_map; exists p; (split; [exact Hp|]); simpl; auto. }
  clear HR. unfold heterogeneities in F1, F2. rewrite paths_S in F2 |- *. revert ks F2. revert LEN HR' F1. generalize (paths l). intros ps LEN HR' F1. 
  induction F1 as [|p a ps hs HA F1 IH]; intros ks F2.
  - simpl in *. inversion F2. apply Qcle_refl.
  - simpl in F2. inversion F2 as [|p1 k1 ? ks1 H1 F2' E1 E2]; subst. inversion F2' as [|p2 k2 ? ks2 H2 F2'' E3 E4]; subst.
    cbn [flat_map app combine map]. rewrite !sumq_cons. cbn [fst snd].
    assert (IHn := IH ltac:(intros q Hq; apply LEN; now right) ltac:(intros q Hq; apply HR'; now right) ks2 F2''). clear IH.
    pose proof (HR' p (or_introl eq_refl)) as HP3.
    destruct (HP3 p ltac:(simpl; auto)) as [I0 R0]. destruct (HP3 (p ++ [true]) ltac:(simpl; auto)) as [I1 R1]. destruct (HP3 (p ++ [false]) ltac:(simpl; auto)) as [I2 R2].
    assert (SR : forall q, same_range X (region X cs q) f -> same_range (region X cs p) (region X cs q) f).
    { intros q Rq lo hi EX. assert (EXX : exists a b, extrema X f a b). { now apply extrema_exist. }
      destruct EXX as (a0 & b0 & EXX). destruct (extrema_unique _ _ _ _ _ _ EX (R0 _ _ EXX)) as [-> ->]. now apply Rq. }
    pose proof (C86_cut_partial x c f o h v (region X cs p) (region X cs (p ++ [true])) (region X cs (p ++ [false])) _ _ _ a k1 k2 ICE HH RL
      (children_perm X cs p (LEN p (or_introl eq_refl))) I0 I1 I2 (SR _ R1) (SR _ R2) HA H1 H2) as CUT.
    set (n0 := qn (length (region X cs p))) in *. set (n1 := qn (length (region X cs (p ++ [true])))) in *. set (n2 := qn (length (region X cs (p ++ [false])))) in *.
    assert (P0 : 0 < n0). { apply qn_pos. destruct I0 as (_ & _ & _ & _ & _ & NE & _). destruct (region X cs p); simpl; [congruence|lia]. }
    assert (C2 : n1 / qn (length X) * k1 + n2 / qn (length X) * k2 <= n0 / qn (length X) * a).
    { replace (n1 / qn (length X) * k1 + n2 / qn (length X) * k2) with (n0 / qn (length X) * (n1 / n0 * k1 + n2 / n0 * k2)) by (field; split; intros E; [rewrite E in HX|rewrite E in P0]; discriminate).
      apply Qcmul_le_compat_l; [|exact CUT]. unfold Qcdiv. apply Qcmult_le_0; apply Qclt_le_weak; [exact P0|apply Qcinv_pos, HX]. }
    rewrite Qcplus_assoc. apply Qcplus_le_compat; [exact C2|exact IHn].
Qed.
Print Assumptions C86_levels_partial.

(** Without the guard on the range it is false: the ten points at which a subregion is measured span its own range of the
    feature. Eight instances with x0 in {0, 1} or {9, 10} according to x2; the model is x0 * x1 with x1 = -1 or 1. The only
    conditioning feature allowed, x2, makes the printed heterogeneity larger. [rt] is exact on the squares that occur. *)
Definition qroot (v : Qc) : Qc := Q2Qc (Qmake (Z.sqrt (Qnum (this v))) (Z.to_pos (Z.sqrt (Zpos (Qden (this v)))))).
Definition ex86_x : externals := mkX qroot (fun _ n => seq 0 n) (fun _ => Raise ValueError) (fun l => seq 0 (length l)) (fun _ _ => Raise ValueError) (fun _ => ""%string).
Definition ex86_rows : Mat := [qs [0; 1; 0]; qs [1; -1; 0]; qs [9; 1; 1]; qs [9; -1; 1]; qs [10; 1; 1]; qs [10; -1; 1]; qs [9; 1; 1]; qs [10; -1; 1]].
Definition ex86_o : fitopts := mkFO (Q2Qc (1#10)) (Q2Qc (1 # 10)) 1 3 2 (Features [2%nat]) false (MStr "fixed") (PyBool false) (PyStr "all") (PyInt 5) true.
Definition ex86_c := ex_get (rconstruct ex86_x RPDP (mkData Float64 3 ex86_rows) ex_model None (PyStr "all") None None 2 None).
Lemma ok_this (r : res Qc) v : rmap this r = Ok (this v) -> r = Ok v.
Proof. destruct r as [a|e]; simpl; intros H; [|discriminate]. apply Ok_inj in H. f_equal. apply Qc_is_canon. now rewrite H. Qed.
Theorem C86_refuted : exists x c o g r ss imp h u w, q_kind c = RPDP /\ wf_reg c /\ partition_of x c 0 o = Ok (g, Some (r, ss), imp) /\ heter_of x c 0 o = Ok h /\
  (forall p, In p (paths 1) -> (fo_minpts o <= length (region (rows (q_data c)) (conditions ss) p))%nat) /\
  level_heterogeneity h (rows (q_data c)) (q_effects c) (conditions ss) 0 u /\ level_heterogeneity h (rows (q_data c)) (q_effects c) (conditions ss) 1 w /\ u < w.
Proof.
  exists ex86_x, ex86_c, ex86_o.
  assert (HP : exists g r ss imp, partition_of ex86_x ex86_c 0 ex86_o = Ok (g, Some (r, ss), imp)).
  { assert (B : match partition_of ex86_x ex86_c 0 ex86_o with Ok (_, Some _, _) => true | _ => false end = true) by computed.
    destruct (partition_of _ _ _ _) as [[[g [[r ss]|]] imp]|]; try discriminate. now exists g, r, ss, imp. }
  destruct HP as (g & r & ss & imp & HP).
  assert (ES : conditions ss = match partition_of ex86_x ex86_c 0 ex86_o with Ok (_, Some (_, s), _) => conditions s | _ => [] end) by now rewrite HP.
  exists g, r, ss, imp. eexists _, (Q2Qc 5), (Q2Qc (29 # 4)). split; [computed|]. split.
  { assert (B1 : q_effects ex86_c = None) by computed. split; [rewrite B1; exact I|]. apply Nat.leb_le. computed. }
  split; [exact HP|]. split; [reflexivity|]. rewrite ES. clear.
  split. { intros p [<-|[<-|[]]]; apply Nat.leb_le; computed. }
  split. { exists [Q2Qc 5]. split; [constructor; [apply ok_this; computed|constructor]|apply Qc_is_canon; vm_compute; reflexivity]. }
  split; [exists [Q2Qc (1#2); Q2Qc (19#2)]; split; [constructor; [apply ok_this; computed|constructor; [apply ok_this; computed|constructor]]|apply Qc_is_canon; vm_compute; reflexivity]|reflexivity].
Qed.
Print Assumptions C86_refuted.
(** The guarded theorems apply: x0 takes the values 0, 3 on both sides of the split on x1. *)
Definition ex86b_rows : Mat := [qs [0; 1]; qs [3; 1]; qs [1; 2]; qs [0; 2]; qs [0; 9]; qs [3; 9]; qs [3; 1]; qs [2; 9]].
Definition ex86b_c := ex_get (rconstruct ex_x RPDP (mkData Float64 2 ex86b_rows) ex_model None (PyStr "all") None None 2 None).
Definition ex86b_o : fitopts := mkFO (Q2Qc (1#10)) (Q2Qc (1 # 10)) 1 3 2 AllFeatures false (MStr "fixed") (PyBool false) (PyStr "all") (PyInt 5) true.
Definition spans (Z : Mat) (lo hi : Qc) : bool :=
  forallb (fun r => Qcleb lo r@0 && Qcleb r@0 hi) Z && existsb (fun r => Qcleb r@0 lo) Z && existsb (fun r => Qcleb hi r@0) Z.
Lemma spans_ok Z lo hi : spans Z lo hi = true -> extrema Z 0 lo hi.
Proof.
  unfold spans. intros H. apply andb_true_iff in H as [H H3]. apply andb_true_iff in H as [H1 H2]. rewrite forallb_forall in H1.
  assert (B : forall r, In r Z -> lo <= r@0 <= hi). { intros r Hr. specialize (H1 r Hr). apply andb_true_iff in H1 as [A C]. split; now apply Qcleb_le. }
  split; [exact B|]. apply existsb_exists in H2 as (r1 & I1 & L1). apply existsb_exists in H3 as (r2 & I2 & L2). apply Qcleb_le in L1, L2.
  split; [exists r1|exists r2]; (split; [assumption|]); apply Qcle_antisym; try assumption; apply B; assumption.
Qed.
Lemma same_span Z P lo hi : spans Z lo hi = true -> spans P lo hi = true -> same_range Z P 0.
Proof. intros HZ HP a b EX. destruct (extrema_unique _ _ _ _ _ _ EX (spans_ok _ _ _ HZ)) as [-> ->]. now apply spans_ok. Qed.
Example C86_instance : root_like (x_rt ex_x) /\ ice_of ex86b_c 0 (fun q t => t * q@1) /\
  exists g r ss imp h, partition_of ex_x ex86b_c 0 ex86b_o = Ok (g, Some (r, ss), imp) /\ heter_of ex_x ex86b_c 0 ex86b_o = Ok h /\ length ss = 1%nat /\
  let X := rows (q_data ex86b_c) in let cs := conditions ss in
  map (fun p => length (region X cs p)) (paths 1) = [5; 3]%nat /\
  (forall p, In p (paths 0) \/ In p (paths 1) -> Prop_Report.inside ex86b_c 0 ex86b_o (region X cs p) /\ same_range X (region X cs p) 0) /\
  map (fun p => rmap this (h (region X cs p) None)) (paths 0 ++ paths 1) = [Ok (1387 # 32); Ok (19 # 25); Ok 0]%Q.
Proof.
  split. { split; [intros a b _ H; exact H|]. intros w a b _ _ _ _. apply Qcle_refl. }
  split. { assert (A : dt (q_data ex86b_c) = Float64) by computed. assert (B : q_kind ex86b_c = RPDP) by computed. split; [exact A|]. exists (fun r => r@0 * r@1). split; [computed|]. rewrite B.
    intros r t. destruct r as [|a [|b r]]; reflexivity || (unfold with_feature; simpl; ring). }
  assert (HP : exists g r ss imp, partition_of ex_x ex86b_c 0 ex86b_o = Ok (g, Some (r, ss), imp)).
  { assert (B : match partition_of ex_x ex86b_c 0 ex86b_o with Ok (_, Some _, _) => true | _ => false end = true) by computed.
    destruct (partition_of _ _ _ _) as [[[g [[r ss]|]] imp]|]; try discriminate. now exists g, r, ss, imp. }
  destruct HP as (g & r & ss & imp & HP).
  assert (ES : conditions ss = match partition_of ex_x ex86b_c 0 ex86b_o with Ok (_, Some (_, s), _) => conditions s | _ => [] end) by now rewrite HP.
  assert (EL : length ss = 1%nat). { assert (B : match partition_of ex_x ex86b_c 0 ex86b_o with Ok (_, Some (_, s), _) => length s | _ => 0%nat end = 1%nat) by computed. now rewrite HP in B. }
  exists g, r, ss, imp. eexists. split; [exact HP|]. split; [reflexivity|]. split; [exact EL|]. cbv zeta. rewrite ES. clear.
  split; [computed|]. split; [|computed].
  assert (G : forall Z, spans Z 0 (Q2Qc 3) = true -> forallb (fun r => Nat.eqb (length r) 2) Z = true -> Nat.leb 2 (length Z) = true -> Prop_Report.inside ex86b_c 0 ex86b_o Z).
  { intros Z SZ LZ MZ. pose proof (spans_ok _ _ _ SZ) as (B & _). apply Nat.leb_le in MZ. rewrite forallb_forall in LZ.
    assert (A1 : dim (q_data ex86b_c) = 2%nat) by computed. assert (A2 : length (q_mins ex86b_c) = 2%nat) by computed. assert (A3 : length (q_maxs ex86b_c) = 2%nat) by computed.
    assert (A4 : (q_mins ex86b_c)@0 = 0) by (apply Qc_is_canon; vm_compute; reflexivity). assert (A5 : (q_maxs ex86b_c)@0 = Q2Qc 3) by (apply Qc_is_canon; vm_compute; reflexivity).
    unfold Prop_Report.inside. rewrite A1, A2, A3, A4, A5. split; [intros r Hr; split; [apply Nat.eqb_eq, LZ, Hr|apply B, Hr]|]. split; [reflexivity|]. split; [reflexivity|]. split; [lia|]. split; [reflexivity|].
    split; [intros ->; simpl in MZ; lia|]. split; [exact MZ|]. split; [left; reflexivity|]. exists NoCent. split; [reflexivity|discriminate]. }
  intros p Hp. assert (IP : In p [[]; [true]; [false]]) by (destruct Hp as [[<-|[]]|[<-|[<-|[]]]]; simpl; auto).
  split; [|apply (same_span _ _ 0 (Q2Qc 3))]; try apply G; destruct IP as [<-|[<-|[<-|[]]]]; computed.
Qed.
