(** Property C91: expressing the features in other units, x |-> a x + b with a > 0 (Celsius to Fahrenheit, metres to feet, another origin),
    changes only the feature axis: the converted object returns at the converted positions what the original returns.
    [a i], [b i] are the conversion of column i; the second model reads the converted rows as the first reads the original ones. *)
From Verif Require Import Base Numpy Spec NumpyFacts Utils UtilsProofs Helpers HelpersProofs Integrate Binning GlobalALE GlobalPDP ALEState ALEHist PDPProofs RegOrder OrderProofs Columns Prop_Columns Units Origin.
Open Scope Qc_scope.
Open Scope list_scope.

Definition same_model (a b : nat -> Qc) (D : nat) (g g' : list Qc -> Qc) : Prop := forall r, length r = D -> g' (rescale a b r) = g r.
(** such a model exists for every model: it converts the row back *)
Theorem C91_models : forall a b D (g : list Qc -> Qc), (forall i, 0 < a i) -> same_model a b D g (fun r => g (rescale (fun i => / a i) (fun i => - b i / a i) r)).
Proof.
  intros a b D g PA r L. f_equal. apply (nth_ext _ _ 0 0); [now rewrite !rescale_length|]. rewrite !rescale_length. intros i Hi.
  rewrite rescale_nth by now rewrite rescale_length. rewrite rescale_nth by exact Hi. unfold unit. field. intros Z. specialize (PA i). rewrite Z in PA. revert PA. apply Qcle_not_lt, Qcle_refl.
Qed.
Print Assumptions C91_models.

Lemma select_rescale a b (Z : Mat) idx : select_rows (map (rescale a b) Z) idx = rmap (map (rescale a b)) (select_rows Z idx).
Proof. apply take_of_map. Qed.
Definition converted_limits (a b : nat -> Qc) (D : nat) (al al' : option (list Qc * list Qc)) : Prop :=
  match al, al' with
  | None, None => True
  | Some (mins, maxs), Some (mins', maxs') => length mins = D /\ length maxs = D /\ mins' = rescale a b mins /\ maxs' = rescale a b maxs
  | _, _ => False
  end.
(** PDP: any unit. DerPDP from the Jacobian: the derivative with respect to the converted feature is the old one divided by a; stated for a = 1, where it is unchanged; DerPDP by differences likewise. *)
Definition converted_pkinds (a b : nat -> Qc) (D : nat) (k k' : pkind) : Prop :=
  (k = KPDP /\ k' = KPDP) \/ ((forall i, a i = 1) /\ (k = KDer None /\ k' = KDer None \/ exists G G', k = KDer (Some (map G)) /\ k' = KDer (Some (map G')) /\ forall r, length r = D -> G' (rescale a b r) = G r)).

Lemma limits_converted (a b : nat -> Qc) D (d : data) al al' : (forall i, 0 < a i) -> square D (rows d) -> dim d = D -> converted_limits a b D al al' ->
  (exists e, (match al with Some p => Ok p | None => axis_limits_from_data d end) = Raise e /\ (match al' with Some p => Ok p | None => axis_limits_from_data (rescale_data a b d) end) = Raise e) \/
  exists mins maxs, length mins = D /\ length maxs = D /\ (match al with Some p => Ok p | None => axis_limits_from_data d end) = Ok (mins, maxs) /\
    (match al' with Some p => Ok p | None => axis_limits_from_data (rescale_data a b d) end) = Ok (rescale a b mins, rescale a b maxs).
Proof.
  intros PA Q DD AL. destruct (limits_rescale a b D PA d Q DD) as (LP & LL).
  destruct al as [(mins, maxs)|], al' as [(mins', maxs')|]; cbn [converted_limits] in AL; try contradiction.
  - destruct AL as (L1 & L2 & -> & ->). right. exists mins, maxs. auto.
  - rewrite LP. destruct (axis_limits_from_data d) as [(mins, maxs)|e]; [|left; exists e; split; reflexivity]. right. exists mins, maxs. destruct (LL mins maxs eq_refl). auto.
Qed.

Theorem C91_pdp : forall choice a b X k k' g g' nof al al',
  wf_data X -> dt X = Float64 -> (forall i, 0 < a i) -> same_model a b (dim X) g g' -> converted_pkinds a b (dim X) k k' -> converted_limits a b (dim X) al al' ->
  match pconstruct choice k X (map g) nof al, pconstruct choice k' (rescale_data a b X) (map g') nof al' with
  | Ok (c, st), Ok (c', st') => forall rt ks f xs het cv all vec, Forall (pfeatures_in (dim X)) ks -> (f < dim X)%nat ->
      snd (peval c' rt (prun c' rt st' (map (convert_pcall a b) ks)) f (map (unit (a f) (b f)) xs) het cv all vec) = snd (peval c rt (prun c rt st ks) f xs het cv all vec)
  | Raise e, Raise e' => e = e'
  | _, _ => False
  end.
Proof.
  intros choice a b X k k' g g' nof al al' WF DT PA GG KK AL. unfold pconstruct. cbn [rows rescale_data dt dim]. rewrite map_length.
  assert (Q : square (dim X) (rows X)) by (apply Forall_forall, WF).
  destruct (prep_nof_instances choice nof (length (rows X))) as [(m & idx)|e]; cbn [bind]; [|reflexivity].
  rewrite select_rescale. destruct (select_rows (rows X) idx) as [Y|e] eqn:EY; cbn [rmap bind]; [|reflexivity].
  pose proof (select_square _ _ _ _ Q EY) as QY.
  set (d := mkData (dt X) (dim X) Y). change (mkData (dt X) (dim X) (map (rescale a b) Y)) with (rescale_data a b d).
  destruct (limits_converted a b (dim X) d al al' PA QY eq_refl AL) as [(e & A1 & A2)|(mins & maxs & L1 & L2 & A1 & A2)]; rewrite A1, A2; cbn [bind]; [reflexivity|].
  intros rt ks f xs het cv all vec HK Hf.
  apply (pconv_answers a b PA (dim X) (mkPC k (map g) mins maxs) (mkPC k' (map g') (rescale a b mins) (rescale a b maxs))); auto.
  - unfold unit_pkind. cbn [p_model p_kind]. destruct KK as [(-> & ->)|(A & [(-> & ->)|(G & G' & -> & -> & JJ)])]; [left; exists g, g'; auto 6|left; exists g, g'; auto 8|right; exists G, G'; auto].
  - split; [reflexivity|]. split; [exact DT|exact QY].
Qed.
Print Assumptions C91_pdp.

(** ** ALE and RHALE: another origin. *)
Notation one := (fun _ : nat => 1).
Definition converted_kinds (b : nat -> Qc) (D : nat) (k k' : kind) : Prop :=
  (k = KALE /\ k' = KALE) \/ (k = KRHALE None /\ k' = KRHALE None) \/
  exists G G', k = KRHALE (Some (map G)) /\ k' = KRHALE (Some (map G')) /\ forall r, length r = D -> G' (rescale one b r) = G r.
(** no position or axis end exceeds the sentinel 1e8 on either axis *)
Definition small (t x : Qc) : Prop := x <= BIG_M /\ x + t <= BIG_M.
(** RHALE only: np.allclose gives the same verdict on the ends of the axis before and after *)
Definition closeness_kept (c : config) (b : nat -> Qc) (f : nat) : Prop := allclose ((c_mins c)@f + b f) ((c_maxs c)@f + b f) = allclose (c_mins c)@f (c_maxs c)@f.

Lemma unit_one t x : unit 1 t x = x + t. Proof. unfold unit. ring. Qed.
Theorem C91_ale_partial : forall choice b X k k' g g' nof al al' (E : option Mat),
  wf_data X -> dt X = Float64 -> same_model one b (dim X) g g' -> converted_kinds b (dim X) k k' -> converted_limits one b (dim X) al al' ->
  match construct choice k X (map g) nof al E, construct choice k' (rescale_data one b X) (map g') nof al' E with
  | Ok (c, st), Ok (c', st') =>
      (forall f, (f < dim X)%nat -> small (b f) (c_mins c)@f /\ small (b f) (c_maxs c)@f) ->
      k = KALE \/ (forall f, (f < dim X)%nat -> closeness_kept c b f) ->
      forall rt ks f xs het cv, Forall (features_in (dim X)) ks -> (f < dim X)%nat -> (forall x, In x xs -> small (b f) x) ->
      snd (eval c' rt (run c' rt st' (map (convert_call b) ks)) f (map (fun x => x + b f) xs) het cv) = snd (eval c rt (run c rt st ks) f xs het cv)
  | Raise e, Raise e' => e = e'
  | _, _ => False
  end.
Proof.
  intros choice b X k k' g g' nof al al' E WF DT GG KK AL. unfold construct. cbn [rows rescale_data dt dim]. rewrite map_length.
  assert (Q : square (dim X) (rows X)) by (apply Forall_forall, WF).
  destruct (prep_nof_instances choice nof (length (rows X))) as [(m & idx)|e]; cbn [bind]; [|reflexivity].
  rewrite select_rescale. destruct (select_rows (rows X) idx) as [Y|e] eqn:EY; cbn [rmap bind]; [|reflexivity].
  pose proof (select_square _ _ _ _ Q EY) as QY.
  set (es := match k with KALE => _ | _ => _ end). set (es' := match k' with KALE => _ | _ => _ end).
  assert (EE : es' = es) by (subst es es'; destruct KK as [(-> & ->)|[(-> & ->)|(G & G' & -> & -> & _)]]; reflexivity).
  rewrite EE. destruct es as [E0|e]; cbn [rmap bind]; [|reflexivity]. clear EE es'.
  set (d := mkData (dt X) (dim X) Y). change (mkData (dt X) (dim X) (map (rescale one b) Y)) with (rescale_data one b d).
  destruct (limits_converted one b (dim X) d al al' (fun _ => one_pos) QY eq_refl AL) as [(e & A1 & A2)|(mins & maxs & L1 & L2 & A1 & A2)]; rewrite A1, A2; cbn [bind]; [reflexivity|].
  intros SM CL rt ks f xs het cv HK Hf HX. change (mkSt E0 _ _ _) with (fresh E0).
  assert (SB : forall t x, small t x -> below t x) by (intros t x (S1 & S2); split; [exact S1|now rewrite unit_one]).
  rewrite <- (map_ext (unit 1 (b f)) (fun x => x + b f)) by (intros; apply unit_one).
  set (c := mkCfg k d (map g) mins maxs) in *. set (c' := mkCfg k' (rescale_data one b d) (map g') (rescale one b mins) (rescale one b maxs)).
  assert (FI : fine (dim X) d) by (split; [reflexivity|split; [exact DT|exact QY]]).
  apply (conv_answers b (dim X) g g' GG c c'); auto.
  - unfold default_method, method_allowed. cbn [c_kind c c']. destruct KK as [(-> & ->)|[(-> & ->)|(G & G' & -> & -> & _)]]; auto.
  - intros i mth Hi. unfold ALEHist.pfit, fit_feature. cbn [c_kind c c' fresh st_eff].
    assert (RF : forall e, k <> KALE -> rhale_fit_feature c' e i mth = rmap (shift_params (b i)) (rhale_fit_feature c e i mth)).
    { intros e NK. apply (rhale_fit_shift b (dim X) g g' GG); auto. unfold close_alike. rewrite !unit_one. destruct CL as [CL|CL]; [contradiction|]. now apply CL. }
    destruct KK as [(-> & ->)|[(-> & ->)|(G & G' & -> & -> & JJ)]]; cbn [snd].
    + now apply (ale_fit_shift b (dim X) g g').
    + destruct E0 as [e|]; cbn [snd]; [now apply RF|]. unfold compile. cbn [c_data c_model c c'].
      change (rescale_data one b d) with (rescale_data one b (c_data c)). rewrite (numerical_shift b (dim X) g g' GG c FI) by assumption. cbn [c_data c].
      destruct (compute_jacobian_numerically (map g) d EPS) as [e|e]; cbn [snd]; [now apply RF|reflexivity].
    + destruct E0 as [e|]; cbn [snd]; [now apply RF|]. unfold compile. cbn [c_data c c' rows rescale_data d snd].
      replace (map G' (map (rescale one b) Y)) with (map G Y); [now apply RF|]. rewrite map_map. apply map_ext_in. intros r I. symmetry. apply JJ. eapply Forall_forall in QY; eauto.
  - intros i Hi. destruct (SM i Hi). auto.
Qed.
Print Assumptions C91_ale_partial.

(** ALE is not invariant under another unit: the last bin limit is enlarged by an absolute 1e-8 before the local effects are taken.
    Instances 0 and 1, model x^2, one bin: the curve at the right end is 1 + 1e-8; with the feature in units of 1e8 it is 2. *)
Definition ex91_X : data := mkData Float64 1 [qs [0]; qs [1]].
Definition ex91_g (r : list Qc) : Qc := r@0 * r@0.
Definition ex91_a : nat -> Qc := fun _ => Q2Qc (1 # 100000000).
Definition ex91_b : nat -> Qc := fun _ => 0.
Definition ex91_g' (r : list Qc) : Qc := ex91_g (rescale (fun i => / ex91_a i) (fun i => - ex91_b i / ex91_a i) r).
Definition obj91 (k : kind) (X : data) (g : list Qc -> Qc) : config * state :=
  match construct (fun _ _ => []) k X (map g) (PyStr "all") None None with Ok p => p | Raise _ => (mkCfg k X (map g) [] [], fresh None) end.
Definition curve91 (k : kind) (X : data) (g : list Qc -> Qc) (m : method) (xs : list Qc) : res (list Qc * option (list Qc)) :=
  let o := obj91 k X g in snd (eval (fst o) (fun v => v) (run (fst o) (fun v => v) (snd o) [CallFit [0%nat] m (PyBool false)]) 0 xs false (PyBool false)).
Theorem C91_ale_units_refuted : wf_data ex91_X /\ (forall i, 0 < ex91_a i) /\ same_model ex91_a ex91_b 1 ex91_g ex91_g' /\
  rmap (fun p => map this (fst p)) (curve91 KALE ex91_X ex91_g (MFixed 1 (Some 0%nat) 0) (qs [1])) = Ok [(100000001 # 100000000)%Q] /\
  rmap (fun p => map this (fst p)) (curve91 KALE (rescale_data ex91_a ex91_b ex91_X) ex91_g' (MFixed 1 (Some 0%nat) 0) [unit (ex91_a 0) (ex91_b 0) 1]) = Ok [2%Q].
Proof.
  split; [intros r [<-|[<-|[]]]; reflexivity|]. split; [intros i; apply Qcltb_lt; reflexivity|]. split; [apply C91_models; intros i; apply Qcltb_lt; reflexivity|].
  split; vm_compute; reflexivity.
Qed.
(** RHALE is not invariant under another origin: on [0, 1/1000] the greedy method finds two bins; on [1000, 1000 + 1/1000] np.allclose takes
    the two ends for one value and everything falls in one bin. *)
Definition ex91_Y : data := mkData Float64 1 [[Q2Qc 0]; [Q2Qc (1 # 5000)]; [Q2Qc (4 # 5000)]; [Q2Qc (1 # 1000)]].
Definition ex91_h (r : list Qc) : Qc := if r@0 <? Q2Qc (1 # 2000) then 0 else r@0 - Q2Qc (1 # 2000).
Definition ex91_G (r : list Qc) : list Qc := [if r@0 <? Q2Qc (1 # 2000) then 0 else 1].
Definition ex91_t : nat -> Qc := fun _ => Q2Qc 1000.
Definition ex91_h' (r : list Qc) : Qc := ex91_h (rescale one (fun i => - ex91_t i) r).
Definition ex91_G' (r : list Qc) : list Qc := ex91_G (rescale one (fun i => - ex91_t i) r).
Theorem C91_ale_origin_refuted : wf_data ex91_Y /\ same_model one ex91_t 1 ex91_h ex91_h' /\
  converted_kinds ex91_t 1 (KRHALE (Some (map ex91_G))) (KRHALE (Some (map ex91_G'))) /\
  rmap (fun p => map this (fst p)) (curve91 (KRHALE (Some (map ex91_G))) ex91_Y ex91_h (MGreedy 2 (Some 1%nat) 0 0) [Q2Qc (1 # 2000)]) = Ok [0%Q] /\
  rmap (fun p => map this (fst p)) (curve91 (KRHALE (Some (map ex91_G'))) (rescale_data one ex91_t ex91_Y) ex91_h' (MGreedy 2 (Some 1%nat) 0 0) [Q2Qc (1 # 2000) + ex91_t 0]) = Ok [(1 # 4000)%Q].
Proof.
  assert (R : forall r, length r = 1%nat -> rescale one (fun i => - ex91_t i) (rescale one ex91_t r) = r).
  { intros [|x [|y r]] L; try discriminate. unfold rescale. cbn [length seq map nth]. f_equal. unfold unit. ring. }
  split; [intros r [<-|[<-|[<-|[<-|[]]]]]; reflexivity|]. split; [intros r L; unfold ex91_h'; now rewrite R|].
  split; [right; right; exists ex91_G, ex91_G'; split; [reflexivity|split; [reflexivity|intros r L; unfold ex91_G'; now rewrite R]]|].
  split; vm_compute; reflexivity.
Qed.
(** and beyond 1e8 the sentinel enters: the same RHALE curve at the right end, with the origin moved by 2e8 *)
Definition ex91_t8 : nat -> Qc := fun _ => Q2Qc 200000000.
Definition ex91_Z : data := mkData Float64 1 [qs [0]; qs [1]; qs [2]].
Theorem C91_ale_sentinel_refuted : wf_data ex91_Z /\ same_model one ex91_t8 1 (fun r => r@0) (fun r => r@0 - ex91_t8 0) /\
  converted_kinds ex91_t8 1 (KRHALE (Some (map (fun _ => [1])))) (KRHALE (Some (map (fun _ => [1])))) /\
  rmap (fun p => map this (fst p)) (curve91 (KRHALE (Some (map (fun _ => [1])))) ex91_Z (fun r => r@0) (MFixed 1 (Some 0%nat) 0) (qs [2])) = Ok [2%Q] /\
  rmap (fun p => map this (fst p)) (curve91 (KRHALE (Some (map (fun _ => [1])))) (rescale_data one ex91_t8 ex91_Z) (fun r => r@0 - ex91_t8 0) (MFixed 1 (Some 0%nat) 0) [Q2Qc 2 + ex91_t8 0]) = Ok [100000004%Q].
Proof.
  split; [intros r [<-|[<-|[<-|[]]]]; reflexivity|]. split.
  { intros [|x [|y r]] L; try discriminate. unfold rescale. cbn [length seq map nth]. unfold unit. ring. }
  split; [right; right; do 2 eexists; split; [reflexivity|split; [reflexivity|intros r L; reflexivity]]|]. split; vm_compute; reflexivity.
Qed.

(** Instances: Celsius to Fahrenheit for a PDP; Celsius to Kelvin for ALE and RHALE. *)
Definition ex91_T : data := mkData Float64 2 [qs [10; 1]; qs [20; 3]; qs [30; 2]; qs [40; 5]].
Definition ex91_m (r : list Qc) : Qc := r@0 * r@1 + r@0 * r@0.
Definition fahrenheit : nat -> Qc := fun i => match i with O => Q2Qc (9 # 5) | _ => 1 end.
Definition fahrenheit0 : nat -> Qc := fun i => match i with O => Q2Qc 32 | _ => 0 end.
Definition kelvin : nat -> Qc := fun i => match i with O => Q2Qc (27315 # 100) | _ => 0 end.
Definition ex91_obj : config * state := obj91 KALE ex91_T ex91_m.
Definition pcurve91 := match pconstruct (fun _ _ => []) KPDP ex91_T (map ex91_m) (PyStr "all") None with Ok (c, st) => snd (peval c (fun v => v) st 0 (qs [10; 25]) false (PyBool true) false true) | Raise e => Raise e end.
Example C91_instance : wf_data ex91_T /\ (forall i, 0 < fahrenheit i) /\
  (exists c st, construct (fun _ _ => []) KALE ex91_T (map ex91_m) (PyStr "all") None None = Ok (c, st) /\
     (forall f, (f < 2)%nat -> small (kelvin f) (c_mins c)@f /\ small (kelvin f) (c_maxs c)@f) /\ (forall f, (f < 2)%nat -> closeness_kept c kelvin f)) /\
  (exists y, curve91 KALE ex91_T ex91_m (MFixed 2 (Some 0%nat) 0) (qs [10; 25]) = Ok (y, None) /\ length y = 2%nat) /\
  (exists y, pcurve91 = Ok (OMean y) /\ length y = 2%nat).
Proof.
  split; [intros r [<-|[<-|[<-|[<-|[]]]]]; reflexivity|]. split; [intros [|i]; apply Qcltb_lt; reflexivity|].
  split; [do 2 eexists; split; [vm_compute; reflexivity|]; cbn [c_mins c_maxs nth]; split|].
  - intros [|[|f]] H; [| |lia]; repeat split; apply Qcleb_le; vm_compute; reflexivity.
  - intros [|[|f]] H; [| |lia]; vm_compute; reflexivity.
  - split; vm_compute; eexists; split; reflexivity.
Qed.
