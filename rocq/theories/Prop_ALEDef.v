(** Properties C71-C76: what the curves of ALE and RHALE are, end to end, in terms of the model and the data.
    ALESpec.v is the specification. [c] is an object, [ks] any history of fit/eval calls on it, [rt] stands for np.sqrt. *)
From Verif Require Import Base Numpy Spec ALESpec NumpyFacts Utils UtilsProofs FillProofs AccProofs LocalProofs ParamsProofs
  Helpers Integrate HelpersProofs Binning BinProofs GreedyProofs DPProofs LimitsProofs GlobalALE ALEState ALEHist ALEFit ALEProps ALESuccess ALECurves
  ALEDefProofs Prop_GlobalALE.
Open Scope Qc_scope.
Open Scope list_scope.

(** * C71  ALE is the accumulated mean finite difference *)
(** The Fixed options in force: the default (20 bins, categorical up to 15 values), or options given to an earlier fit. *)
Definition ale_options (ks : list call) (n cl : nat) : Prop :=
  (n = 20 /\ cl = 15)%nat \/ exists fs mp cv, In (CallFit fs (MFixed n mp cl) cv) ks.


(** The pair (y, h) returned by eval is the accumulated effect of the feature [f] of the object [c] with model [map g], for
    [n] equal-width bins (one bin per value up to [cl] values): the instances inside the axis range are distributed over the
    bins; every instance of a bin contributes the finite difference of the model over the bin; the curve integrates the mean
    contribution of the bins, the heterogeneity the (square root of the) variance. *)
Definition ale_effect (c : config) (g : list Qc -> Qc) (rt : Qc -> Qc) (n cl f : nat) (ce : centering) (xs : list Qc) (het : bool)
    (y : list Qc) (h : option (list Qc)) : Prop :=
  let lo := (c_mins c)@f in let hi := (c_maxs c)@f in
  let Z := inside_range lo hi f (rows (c_data c)) in
  exists l l' be bv,
    fixed_binning n cl (map (fun r => r@f) Z) lo hi l /\ widened l l' /\
    (forall r, In r Z -> exists k, (k < length l' - 1)%nat /\ In r (bin_of l' f Z k)) /\
    bin_means l' (fun k => map (slope (dt (c_data c)) g f l' k) (bin_of l' f Z k)) be /\
    bin_variances l' (fun k => map (slope (dt (c_data c)) g f l' k) (bin_of l' f Z k)) bv /\
    y = map (fun x => step_integral l' be x - offset ce lo hi (step_integral l' be)) xs /\
    h = if het then Some (map (step_integral l' (map rt bv)) xs) else None.
Lemma drawn_ale c g rt E0 f m p n mp cl ce xs het y h : c_kind c = KALE -> c_model c = map g -> bins_pos m -> pfit c E0 f m = Ok p ->
  lo_of c f < hi_of c f -> ale_method m = Some (MFixed n mp cl) -> drawn c rt f xs het ce p y h ->
  (c_maxs c)@f <= BIG_M -> (forall x, In x xs -> x <= BIG_M) ->
  ale_effect c g rt n cl f (cent_of ce) xs het y h.
Proof.
  intros K Hm BP PF LH Ma EV HB HX.
  destruct (pfit_ale_definition c g E0 f m p K Hm BP PF LH) as (n' & mp' & cl' & l & l' & MM & Hn & FB & W & I & L2 & C & B1 & B2 & E1 & E2).
  rewrite Ma in MM. injection MM as <- <- <-.
  destruct (EV l' (ap_effect p) (map rt (ap_var p)) E1 (E2 rt) HB HX) as (Ey & Eh). unfold ale_effect. cbv zeta.
  exists l, l', (ap_effect p), (ap_var p).
  split; [exact FB|]. split; [exact W|]. split; [|auto].
  intros r Hr. assert (Q : covered l' r@f). { apply C. unfold fit_xs, col. apply in_map_iff. exists r. split; [reflexivity|exact Hr]. }
  destruct (bnat_in_bin l' r@f L2 I Q) as (Q1 & Q2). exists (bnat l' r@f). split; [lia|]. unfold bin_of. apply filter_In. auto.
Qed.

(** After any history. *)
Theorem C71_ale_definition : forall c g rt ks f xs het cv st' y h,
  c_kind c = KALE -> c_model c = map g -> Forall positive_bins ks ->
  eval c rt (run c rt (fresh None) ks) f xs het cv = (st', Ok (y, h)) ->
  (c_maxs c)@f <= Q2Qc 100000000 -> (forall x, In x xs -> x <= Q2Qc 100000000) ->
  exists n cl ce, ale_options ks n cl /\ requested cv ce /\ ale_effect c g rt n cl f ce xs het y h.
Proof.
  intros c g rt ks f xs het cv st' y h K Hm F H HB HX.
  destruct (eval_curves c None rt ks f xs het cv st' y h (positive_bins_ok ks F) H) as (LH & Hf & ce & m & p & PC & BP & UM & PF & EV).
  destruct (pfit_ale_definition c g None f m p K Hm BP PF LH) as (n & mp & cl & _ & _ & MM & _).
  exists n, cl, (cent_of ce). split; [|split; [now apply prep_cent_requested|eapply drawn_ale; eauto]].
  unfold ale_options. destruct UM as [->|(fs & cv' & Hin)].
  - unfold default_method in MM. rewrite K in MM. simpl in MM. injection MM as <- _ <-. left. auto.
  - destruct m as [s|n' mp' cl'|n' mp' d' cl'|n' mp' d' cl']; simpl in MM; try discriminate.
    + destruct (String.eqb s "fixed"); [|discriminate]. injection MM as <- _ <-. left. auto.
    + injection MM as -> -> ->. right. eauto.
Qed.
Print Assumptions C71_ale_definition.

(** After any history followed by an explicit fit of the feature: exactly the bins asked for, when eval uses the same centering
    (or none). *)
Theorem C71_ale_requested_bins : forall c g rt ks f n mp cl cv cv' st1 xs het st' y h,
  c_kind c = KALE -> c_model c = map g -> (1 <= n)%nat ->
  fit c (run c rt (fresh None) ks) [f] (MFixed n mp cl) cv = (st1, Ok tt) -> cv' = cv \/ cv' = PyBool false ->
  eval c rt st1 f xs het cv' = (st', Ok (y, h)) ->
  (c_maxs c)@f <= Q2Qc 100000000 -> (forall x, In x xs -> x <= Q2Qc 100000000) ->
  exists ce, requested cv' ce /\ ale_effect c g rt n cl f ce xs het y h.
Proof.
  intros c g rt ks f n mp cl cv cv' st1 xs het st' y h K Hm Hn HF Hcv H HB HX.
  destruct (fit_eval_curves c None rt ks f (MFixed n mp cl) cv cv' xs het st1 st' y h HF Hcv H) as (LH & Hf & ce & p & PC & PF & EV).
  exists (cent_of ce). split; [now apply prep_cent_requested|].
  exact (drawn_ale c g rt None f (MFixed n mp cl) p n mp cl ce xs het y h K Hm Hn PF LH eq_refl EV HB HX).
Qed.
Print Assumptions C71_ale_requested_bins.
(** Model x_0 * x_1 on six instances: a categorical feature (three values) with two instances each. *)
Definition ex71 := mkCfg KALE (mkData Float64 2 [qs [0; 5]; qs [0; 7]; qs [1; 1]; qs [1; 3]; qs [3; 0]; qs [3; 4]]) (map (fun r => r@0 * r@1)) (qs [0; 0]) (qs [3; 7]).
Example C71_instance :
  rmap (fun p => (show (fst p), option_map show (snd p))) (snd (eval ex71 (fun v => v) (fresh None) 0 (qs [-1; 0; 1; 2]) true (PyBool false))) = Ok ([0; 3; 15#2; 21#2]%Q, Some [0; 1#2; 17#8; 35#8]%Q) /\
  rmap (fun p => show (fst p)) (snd (eval ex71 (fun v => v) (fst (fit ex71 (fresh None) [0%nat] (MFixed 1 (Some 0%nat) 2) (PyBool true))) 0 (qs [0; 1; 3]) true (PyBool false))) = Ok [0; 10#3; 10]%Q.
Proof. split; vm_compute; reflexivity. Qed.

(** * C72  RHALE is the accumulated mean derivative *)
(** [E] is the effect matrix in use: the user's data_effect, or the Jacobian (exact or numerical) of the data. *)
Definition rhale_effect (c : config) (E : list (list Qc)) (rt : Qc -> Qc) (m : method) (f : nat) (ce : centering) (xs : list Qc) (het : bool)
    (y : list Qc) (h : option (list Qc)) : Prop :=
  let lo := (c_mins c)@f in let hi := (c_maxs c)@f in
  let Z := filter (fun q => (lo <=? (fst q)@f) && ((fst q)@f <=? hi)) (combine (rows (c_data c)) E) in
  exists l be bv,
    find_limits_b (mkB (map (fun q => (fst q)@f) Z) (map (fun q => (snd q)@f) Z) lo hi) m = Ok (LArr l) /\
    (forall q, In q Z -> exists k, (k < length l - 1)%nat /\ In q (bin_pairs l f Z k)) /\
    bin_means l (fun k => map (fun q => (snd q)@f) (bin_pairs l f Z k)) be /\
    bin_variances l (fun k => map (fun q => (snd q)@f) (bin_pairs l f Z k)) bv /\
    y = map (fun x => step_integral l be x - offset ce lo hi (step_integral l be)) xs /\
    h = if het then Some (map (step_integral l (map rt bv)) xs) else None.
Lemma drawn_rhale c jac E0 E rt f m p ce xs het y h : c_kind c = KRHALE jac -> match E0 with Some e => Ok e | None => compile c jac end = Ok E ->
  bins_pos m -> pfit c E0 f m = Ok p -> lo_of c f < hi_of c f -> drawn c rt f xs het ce p y h ->
  (c_maxs c)@f <= BIG_M -> (forall x, In x xs -> x <= BIG_M) ->
  length E = length (rows (c_data c)) /\ rhale_effect c E rt m f (cent_of ce) xs het y h.
Proof.
  intros K HE BP PF LH EV HB HX.
  destruct (pfit_rhale_definition c jac E0 E f m p K HE BP PF LH) as (l & FL & I & L2 & C & LE & B1 & B2 & E1 & E2).
  split; [exact LE|]. destruct (EV l (ap_effect p) (map rt (ap_var p)) E1 (E2 rt) HB HX) as (Ey & Eh). unfold rhale_effect. cbv zeta.
  exists l, (ap_effect p), (ap_var p). unfold col in FL, C. rewrite !map_map in FL. rewrite map_map in C. split; [exact FL|]. split; [|auto].
  intros q Hq. assert (Q : covered l (fst q)@f). { apply C. apply in_map_iff. exists q. split; [reflexivity|exact Hq]. }
  destruct (bnat_in_bin l (fst q)@f L2 I Q) as (Q1 & Q2). exists (bnat l (fst q)@f). split; [lia|]. unfold bin_pairs. apply filter_In. auto.
Qed.

Theorem C72_rhale_definition : forall c jac E0 E rt ks f xs het cv st' y h,
  c_kind c = KRHALE jac -> match E0 with Some e => Ok e | None => compile c jac end = Ok E -> Forall positive_bins ks ->
  eval c rt (run c rt (fresh E0) ks) f xs het cv = (st', Ok (y, h)) ->
  (c_maxs c)@f <= Q2Qc 100000000 -> (forall x, In x xs -> x <= Q2Qc 100000000) ->
  length E = length (rows (c_data c)) /\
  exists m ce, (m = MStr "greedy" \/ exists fs cv, In (CallFit fs m cv) ks) /\ requested cv ce /\ rhale_effect c E rt m f ce xs het y h.
Proof.
  intros c jac E0 E rt ks f xs het cv st' y h K HE F H HB HX.
  destruct (eval_curves c E0 rt ks f xs het cv st' y h (positive_bins_ok ks F) H) as (LH & Hf & ce & m & p & PC & BP & UM & PF & EV).
  destruct (drawn_rhale c jac E0 E rt f m p ce xs het y h K HE BP PF LH EV HB HX) as (LE & R). split; [exact LE|].
  exists m, (cent_of ce). split; [|split; [now apply prep_cent_requested|exact R]].
  destruct UM as [->|(fs & cv' & Hin)]; [left; unfold default_method; now rewrite K|right; eauto].
Qed.
Print Assumptions C72_rhale_definition.
Theorem C72_rhale_requested_bins : forall c jac E0 E rt ks f m cv cv' st1 xs het st' y h,
  c_kind c = KRHALE jac -> match E0 with Some e => Ok e | None => compile c jac end = Ok E -> bins_pos m ->
  fit c (run c rt (fresh E0) ks) [f] m cv = (st1, Ok tt) -> cv' = cv \/ cv' = PyBool false ->
  eval c rt st1 f xs het cv' = (st', Ok (y, h)) ->
  (c_maxs c)@f <= Q2Qc 100000000 -> (forall x, In x xs -> x <= Q2Qc 100000000) ->
  length E = length (rows (c_data c)) /\ exists ce, requested cv' ce /\ rhale_effect c E rt m f ce xs het y h.
Proof.
  intros c jac E0 E rt ks f m cv cv' st1 xs het st' y h K HE BP HF Hcv H HB HX.
  destruct (fit_eval_curves c E0 rt ks f m cv cv' xs het st1 st' y h HF Hcv H) as (LH & Hf & ce & p & PC & PF & EV).
  destruct (drawn_rhale c jac E0 E rt f m p ce xs het y h K HE BP PF LH EV HB HX) as (LE & R). split; [exact LE|].
  exists (cent_of ce). split; [now apply prep_cent_requested|exact R].
Qed.
Print Assumptions C72_rhale_requested_bins.
Definition ex72 := mkCfg (KRHALE (Some (map (fun r => [r@1; r@0])))) (mkData Float64 2 [qs [0; 5]; qs [0; 7]; qs [1; 1]; qs [1; 3]; qs [3; 0]; qs [3; 4]]) (map (fun r => r@0 * r@1)) (qs [0; 0]) (qs [3; 7]).
Example C72_instance :
  rmap (fun p => (show (fst p), option_map show (snd p))) (snd (eval ex72 (fun v => v) (fst (fit ex72 (fresh None) [0%nat] (MGreedy 3 (Some 2%nat) 0 0) (PyBool true))) 0 (qs [0; 1; 3]) true (PyBool false))) = Ok ([0; 6; 10]%Q, Some [0; 1; 6]%Q) /\
  rmap (fun p => (show (fst p), option_map show (snd p))) (snd (eval ex72 (fun v => v) (fst (fit ex72 (fresh None) [0%nat] (MDP 3 (Some 2%nat) 0 0) (PyBool true))) 0 (qs [0; 1; 3]) true (PyBool false))) = Ok ([0; 6; 10]%Q, Some [0; 1; 6]%Q).
Proof. split; vm_compute; reflexivity. Qed.
