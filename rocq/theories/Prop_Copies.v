(** C95: the effects depend on the instances only through their distribution. [copies k A B] (Copies.v): B holds every
    instance of A k times (counted with multiplicity), in any order; k = 1 is a reordering. *)
From Verif Require Import Base Numpy Spec ALESpec NumpyFacts Utils UtilsProofs FillProofs AccProofs LocalProofs ParamsProofs
  Helpers Integrate HelpersProofs Binning BinProofs GreedyProofs DPProofs LimitsProofs GlobalALE ALEState ALEHist ALEFit ALEProps ALESuccess ALECurves
  ALESpecFacts ALEDefProofs GlobalPDP PDPFacts PDPProofs Prop_PDP Prop_GlobalALE Prop_ALEDef Prop_ALELaws Copies.
From Coq Require Import Permutation.
Open Scope Qc_scope.
Open Scope list_scope.

(** * C95  PDP and d-PDP: any row-wise model, any limits, fresh objects on the two datasets *)
Lemma copies_np_mean k a b : copies k a b -> np_mean b = np_mean a.
Proof.
  intros C. pose proof (copies_nil _ _ _ C) as (N1 & N2). destruct a as [|x a]; [now rewrite (N1 eq_refl)|].
  rewrite !np_mean_some; [f_equal; now apply (copies_mean k)|discriminate|]. intros E. specialize (N2 E). discriminate.
Qed.
Lemma copies_np_var k a b : copies k a b -> np_var b = np_var a.
Proof.
  intros C. pose proof (copies_nil _ _ _ C) as (N1 & N2). destruct a as [|x a]; [now rewrite (N1 eq_refl)|].
  rewrite !np_var_some; [f_equal; now apply (copies_variance k)|discriminate|]. intros E. specialize (N2 E). discriminate.
Qed.
Theorem C95_pdp : forall c g G X Y k rt s xs het cv vec, row_object c (dim X) g G -> wf_data X -> limits_ok c (dim X) ->
  dt Y = dt X -> dim Y = dim X -> copies k (rows X) (rows Y) ->
  (s < dim X)%nat -> (p_mins c)@s < (p_maxs c)@s -> vec = true \/ xs <> [] ->
  snd (peval c rt (pfresh X) s xs het cv false vec) = snd (peval c rt (pfresh Y) s xs het cv false vec).
Proof.
  intros c g G X Y k rt s xs het cv vec RO W LIM DT DM P S LH V. destruct (prep_cent cv) as [ce|e] eqn:PC; [|unfold peval; now rewrite PC].
  assert (WY : wf_data Y) by (intros r Hr; rewrite DM; apply W; eapply copies_in; [exact P|exact Hr]).
  rewrite (peval_fresh c g G X RO W LIM rt s xs het cv ce false vec PC S LH V).
  rewrite (peval_fresh c g G Y) with (ce := ce); auto; try (rewrite DM; assumption).
  set (ZX := rows (within c [s] X)). set (ZY := rows (within c [s] Y)).
  assert (PZ : copies k ZX ZY) by (unfold ZX, ZY, within; cbn [rows]; now apply copies_filter).
  unfold shift_at. rewrite DT. set (v := pvalue (p_kind c) (dt X) g G s). set (sh := shift v _ _ _ ce).
  assert (PR : forall x, copies k (map (fun r => v r x - sh r) ZX) (map (fun r => v r x - sh r) ZY)) by (intros; now apply copies_map).
  assert (M : row_means (centered v sh ZX xs) = row_means (centered v sh ZY xs)).
  { unfold row_means, centered. rewrite !map_map. apply map_ext. intros x. symmetry. apply (copies_np_mean k), PR. }
  assert (N : row_stds rt (centered v sh ZX xs) = row_stds rt (centered v sh ZY xs)).
  { unfold row_stds, centered. rewrite !map_map. apply map_ext. intros x. f_equal. symmetry. apply (copies_np_var k), PR. }
  unfold summary. now rewrite M, N.
Qed.
Print Assumptions C95_pdp.
(** Also after different histories on the two objects, with the instances inside the limits (the default limits). *)
Theorem C95_pdp_history : forall c g G X Y k rt ks ks' s xs het cv vec, row_object c (dim X) g G -> wf_data X -> limits_ok c (dim X) ->
  (forall f r, (f < dim X)%nat -> In r (rows X) -> (p_mins c)@f <= r@f <= (p_maxs c)@f) ->
  (forall fs cv' pts vec', In (PFit fs cv' pts vec') ks \/ In (PFit fs cv' pts vec') ks' -> pts = PyInt 100) ->
  dt Y = dt X -> dim Y = dim X -> copies k (rows X) (rows Y) ->
  (s < dim X)%nat -> (p_mins c)@s < (p_maxs c)@s -> vec = true \/ xs <> [] ->
  snd (peval c rt (prun c rt (pfresh X) ks) s xs het cv false vec) = snd (peval c rt (prun c rt (pfresh Y) ks') s xs het cv false vec).
Proof.
  intros c g G X Y k rt ks ks' s xs het cv vec RO W LIM INL HP DT DM P S LH V.
  assert (WY : wf_data Y) by (intros r Hr; rewrite DM; apply W; eapply copies_in; [exact P|exact Hr]).
  rewrite (C29_history_free_partial c g G X rt ks s xs het cv false vec RO W LIM INL); auto; [|intros; eapply HP; eauto].
  rewrite (C29_history_free_partial c g G Y rt ks' s xs het cv false vec); auto; rewrite ?DM; auto; [|intros f r Hf Hr; apply INL; [exact Hf|eapply copies_in; eauto]|intros; eapply HP; eauto].
  eapply C95_pdp; eauto.
Qed.
Print Assumptions C95_pdp_history.

(** * C95  ALE: the curve, for the fixed binnings *)
(** Two objects with the same model and limits, the second with k copies of the instances of the first. *)
Definition copied (k : nat) (c c' : config) : Prop :=
  c_kind c = c_kind c' /\ c_mins c = c_mins c' /\ c_maxs c = c_maxs c' /\ dt (c_data c) = dt (c_data c') /\ c_model c = c_model c' /\
  copies k (rows (c_data c)) (rows (c_data c')).
(** No bin of the binning of feature f (n bins, categorical up to cl values) holds exactly one instance. *)
Definition no_single (c : config) (n cl f : nat) : Prop :=
  let lo := (c_mins c)@f in let hi := (c_maxs c)@f in let Z := inside_range lo hi f (rows (c_data c)) in
  forall l l', fixed_binning n cl (map (fun r => r@f) Z) lo hi l -> widened l l' -> forall k, length (bin_of l' f Z k) <> 1%nat.
Lemma copied_effect c c' k g rt n cl f ce xs het het' y h y' h' : copied k c c' ->
  ale_effect c g rt n cl f ce xs het y h -> ale_effect c' g rt n cl f ce xs het' y' h' ->
  y = y' /\ (het = het' -> no_single c n cl f \/ k = 1%nat -> h = h').
Proof.
  intros (_ & Em & EM & Ed & _ & C) A B. unfold ale_effect in *. cbv zeta in *. rewrite <- Em, <- EM, <- Ed in B.
  set (lo := (c_mins c)@f) in *. set (hi := (c_maxs c)@f) in *.
  assert (CZ : copies k (inside_range lo hi f (rows (c_data c))) (inside_range lo hi f (rows (c_data c')))) by now apply copies_filter.
  unfold no_single. cbv zeta. fold lo hi.
  set (Z := inside_range lo hi f (rows (c_data c))) in *. set (Z' := inside_range lo hi f (rows (c_data c'))) in *.
  destruct A as (l & l' & be & bv & A1 & A2 & _ & A3 & A4 & A5 & A6). destruct B as (m & m' & be' & bv' & B1 & B2 & _ & B3 & B4 & B5 & B6).
  assert (m = l). { symmetry. eapply fixed_binning_unique; [|exact A1|exact B1]. intros x. eapply copies_in. apply copies_map. exact CZ. } subst m.
  assert (m' = l') by (eapply widened_unique; eauto). subst m'.
  assert (CS : forall i, copies k (map (slope (dt (c_data c)) g f l' i) (bin_of l' f Z i)) (map (slope (dt (c_data c)) g f l' i) (bin_of l' f Z' i)))
    by (intros i; apply copies_map; now apply copies_filter).
  assert (be' = be). { eapply filled_unique; [exact B3|]. unfold bin_means in A3. erewrite map_ext; [exact A3|]. intros i. cbv beta. apply (copies_mean_of k), CS. }
  subst be'. split; [congruence|]. intros <- NS. rewrite A6, B6. destruct het; [|reflexivity].
  assert (bv' = bv).
  { eapply filled_unique; [exact B4|]. unfold bin_variances in A4. erewrite map_ext; [exact A4|]. intros i. cbv beta. apply (copies_variance_of k); [apply CS|].
    destruct NS as [NS|NS]; [left; rewrite map_length; eapply NS; eauto|now right]. }
  now subst bv'.
Qed.
(** After an explicit fit on each object, whatever happened before. *)
Theorem C95_ale : forall c c' k g rt ks ks' f n mp mp' cl cv cv' st1 st1' xs het het' st2 st2' y h y' h',
  copied k c c' -> c_kind c = KALE -> c_model c = map g -> (1 <= n)%nat ->
  fit c (run c rt (fresh None) ks) [f] (MFixed n mp cl) cv = (st1, Ok tt) ->
  fit c' (run c' rt (fresh None) ks') [f] (MFixed n mp' cl) cv = (st1', Ok tt) -> cv' = cv \/ cv' = PyBool false ->
  eval c rt st1 f xs het cv' = (st2, Ok (y, h)) -> eval c' rt st1' f xs het' cv' = (st2', Ok (y', h')) ->
  (c_maxs c)@f <= Q2Qc 100000000 -> (forall x, In x xs -> x <= Q2Qc 100000000) ->
  y = y' /\ (het = het' -> no_single c n cl f \/ k = 1%nat -> h = h').
Proof.
  intros c c' k g rt ks ks' f n mp mp' cl cv cv' st1 st1' xs het het' st2 st2' y h y' h' CP K Hm Hn F F' Hcv H H' HB HX.
  destruct (C71_ale_requested_bins c g rt ks f n mp cl cv cv' st1 xs het st2 y h K Hm Hn F Hcv H HB HX) as (ce & R & A).
  pose proof CP as (EK & Em & EM & _ & EMo & _).
  destruct (C71_ale_requested_bins c' g rt ks' f n mp' cl cv cv' st1' xs het' st2' y' h') as (ce' & R' & A'); try assumption; try congruence.
  assert (RU : forall a b, requested cv' a -> requested cv' b -> a = b) by (unfold requested; intuition congruence).
  assert (ce' = ce) by (apply RU; assumption). subst ce'. eapply copied_effect; eauto.
Qed.
Print Assumptions C95_ale.
(** Without any fit call the object bins with the default options (20 bins, categorical up to 15 values). *)
Theorem C95_ale_default : forall c c' k g rt f xs het het' cv st2 st2' y h y' h',
  copied k c c' -> c_kind c = KALE -> c_model c = map g ->
  eval c rt (fresh None) f xs het cv = (st2, Ok (y, h)) -> eval c' rt (fresh None) f xs het' cv = (st2', Ok (y', h')) ->
  (c_maxs c)@f <= Q2Qc 100000000 -> (forall x, In x xs -> x <= Q2Qc 100000000) ->
  y = y' /\ (het = het' -> no_single c 20 15 f \/ k = 1%nat -> h = h').
Proof.
  intros c c' k g rt f xs het het' cv st2 st2' y h y' h' CP K Hm H H' HB HX. pose proof CP as (EK & Em & EM & _ & EMo & _).
  destruct (C71_ale_definition c g rt [] f xs het cv st2 y h K Hm (Forall_nil _) H HB HX) as (n & cl & ce & O & R & A).
  destruct (C71_ale_definition c' g rt [] f xs het' cv st2' y' h') as (n' & cl' & ce' & O' & R' & A'); try assumption; try congruence; [constructor|].
  assert (RU : forall a b, requested cv a -> requested cv b -> a = b) by (unfold requested; intuition congruence).
  rewrite (RU ce' ce R' R) in A'.
  destruct O as [(-> & ->)|(? & ? & ? & [])]. destruct O' as [(-> & ->)|(? & ? & ? & [])]. eapply copied_effect; eauto.
Qed.
Print Assumptions C95_ale_default.

(** * C95  RHALE with a fixed binning: the instances are copied together with their effects *)
Definition no_single_rhale (c : config) (E : list (list Qc)) (n cl f : nat) : Prop :=
  let lo := (c_mins c)@f in let hi := (c_maxs c)@f in
  let Z := filter (fun q => (lo <=? (fst q)@f) && ((fst q)@f <=? hi)) (combine (rows (c_data c)) E) in
  forall l, fixed_binning n cl (map (fun q => (fst q)@f) Z) lo hi l -> forall k, length (bin_pairs l f Z k) <> 1%nat.
Lemma copied_rhale c c' k E E' rt n mp mp' cl f ce xs het het' y h y' h' : (1 <= n)%nat -> c_mins c = c_mins c' -> c_maxs c = c_maxs c' ->
  copies k (combine (rows (c_data c)) E) (combine (rows (c_data c')) E') ->
  rhale_effect c E rt (MFixed n mp cl) f ce xs het y h -> rhale_effect c' E' rt (MFixed n mp' cl) f ce xs het' y' h' ->
  y = y' /\ (het = het' -> no_single_rhale c E n cl f \/ k = 1%nat -> h = h').
Proof.
  intros Hn Em EM C A B. unfold rhale_effect in *. cbv zeta in *. rewrite <- Em, <- EM in B. unfold no_single_rhale. cbv zeta.
  set (lo := (c_mins c)@f) in *. set (hi := (c_maxs c)@f) in *.
  pose proof (copies_filter (fun q : list Qc * list Qc => (lo <=? (fst q)@f) && ((fst q)@f <=? hi)) _ _ _ C) as CZ.
  set (Z := filter _ (combine (rows (c_data c)) E)) in *. set (Z' := filter _ (combine (rows (c_data c')) E')) in *.
  destruct A as (l & be & bv & A1 & _ & A3 & A4 & A5 & A6). destruct B as (m & be' & bv' & B1 & _ & B3 & B4 & B5 & B6).
  cbn [find_limits_b] in A1, B1. apply fixed_find_binning in A1; [|exact Hn]. apply fixed_find_binning in B1; [|exact Hn]. cbn [b_xs b_lo b_hi] in A1, B1.
  assert (m = l). { symmetry. eapply fixed_binning_unique; [|exact A1|exact B1]. intros x. eapply copies_in. apply copies_map. exact CZ. } subst m.
  assert (CS : forall i, copies k (map (fun q => (snd q)@f) (bin_pairs l f Z i)) (map (fun q => (snd q)@f) (bin_pairs l f Z' i)))
    by (intros i; apply copies_map; now apply copies_filter).
  assert (be' = be). { eapply filled_unique; [exact B3|]. unfold bin_means in A3. erewrite map_ext; [exact A3|]. intros i. cbv beta. apply (copies_mean_of k), CS. }
  subst be'. split; [congruence|]. intros <- NS. rewrite A6, B6. destruct het; [|reflexivity].
  assert (bv' = bv).
  { eapply filled_unique; [exact B4|]. unfold bin_variances in A4. erewrite map_ext; [exact A4|]. intros i. cbv beta. apply (copies_variance_of k); [apply CS|].
    destruct NS as [NS|NS]; [left; rewrite map_length; eapply NS; eauto|now right]. }
  now subst bv'.
Qed.
Theorem C95_rhale : forall c c' k j j' U U' E E' rt ks ks' f n mp mp' cl cv cv' st1 st1' xs het het' st2 st2' y h y' h',
  c_kind c = KRHALE j -> c_kind c' = KRHALE j' -> c_mins c = c_mins c' -> c_maxs c = c_maxs c' ->
  match U with Some e => Ok e | None => compile c j end = Ok E -> match U' with Some e => Ok e | None => compile c' j' end = Ok E' ->
  copies k (combine (rows (c_data c)) E) (combine (rows (c_data c')) E') -> (1 <= n)%nat ->
  fit c (run c rt (fresh U) ks) [f] (MFixed n mp cl) cv = (st1, Ok tt) ->
  fit c' (run c' rt (fresh U') ks') [f] (MFixed n mp' cl) cv = (st1', Ok tt) -> cv' = cv \/ cv' = PyBool false ->
  eval c rt st1 f xs het cv' = (st2, Ok (y, h)) -> eval c' rt st1' f xs het' cv' = (st2', Ok (y', h')) ->
  (c_maxs c)@f <= Q2Qc 100000000 -> (forall x, In x xs -> x <= Q2Qc 100000000) ->
  y = y' /\ (het = het' -> no_single_rhale c E n cl f \/ k = 1%nat -> h = h').
Proof.
  intros c c' k j j' U U' E E' rt ks ks' f n mp mp' cl cv cv' st1 st1' xs het het' st2 st2' y h y' h' K K' Em EM Q Q' C Hn F F' Hcv H H' HB HX.
  destruct (C72_rhale_requested_bins c j U E rt ks f (MFixed n mp cl) cv cv' st1 xs het st2 y h K Q Hn F Hcv H HB HX) as (_ & ce & R & A).
  assert (HB' : (c_maxs c')@f <= Q2Qc 100000000) by (rewrite <- EM; exact HB).
  destruct (C72_rhale_requested_bins c' j' U' E' rt ks' f (MFixed n mp' cl) cv cv' st1' xs het' st2' y' h' K' Q' Hn F' Hcv H' HB' HX) as (_ & ce' & R' & A').
  assert (RU : forall a b, requested cv' a -> requested cv' b -> a = b) by (unfold requested; intuition congruence).
  rewrite (RU ce' ce R' R) in A'. eapply (copied_rhale c c'); eauto.
Qed.
Print Assumptions C95_rhale.
(** With a Jacobian computed instance by instance, copying the instances copies the effects. *)
Corollary C95_rhale_jacobian : forall c c' k G rt ks ks' f n mp mp' cl cv cv' st1 st1' xs het het' st2 st2' y h y' h',
  c_kind c = KRHALE (Some (map G)) -> copied k c c' -> (1 <= n)%nat ->
  fit c (run c rt (fresh None) ks) [f] (MFixed n mp cl) cv = (st1, Ok tt) ->
  fit c' (run c' rt (fresh None) ks') [f] (MFixed n mp' cl) cv = (st1', Ok tt) -> cv' = cv \/ cv' = PyBool false ->
  eval c rt st1 f xs het cv' = (st2, Ok (y, h)) -> eval c' rt st1' f xs het' cv' = (st2', Ok (y', h')) ->
  (c_maxs c)@f <= Q2Qc 100000000 -> (forall x, In x xs -> x <= Q2Qc 100000000) ->
  y = y' /\ (het = het' -> no_single_rhale c (map G (rows (c_data c))) n cl f \/ k = 1%nat -> h = h').
Proof.
  intros c c' k G rt ks ks' f n mp mp' cl cv cv' st1 st1' xs het het' st2 st2' y h y' h' K (EK & Em & EM & _ & _ & C) Hn F F' Hcv H H' HB HX.
  assert (K' : c_kind c' = KRHALE (Some (map G))) by congruence.
  assert (I : forall X : list (list Qc), combine X (map G X) = map (fun r => (r, G r)) X) by (induction X as [|r X IH]; simpl; congruence).
  eapply (C95_rhale c c' k (Some (map G)) (Some (map G)) None None (map G (rows (c_data c))) (map G (rows (c_data c')))); eauto; try reflexivity.
  rewrite !I. now apply copies_map.
Qed.
Print Assumptions C95_rhale_jacobian.

(** * C95  The guard on the heterogeneity is needed *)
(** A bin with one instance takes its variance from the neighbouring bins; once the instance is doubled the variance is 0. *)
Definition ex95X := mkData Float64 2 [qs [0; 5]; qs [0; 7]; qs [1; 1]; qs [3; 0]; qs [3; 4]].
Definition ex95Y := mkData Float64 2 [qs [0; 5]; qs [0; 7]; qs [1; 1]; qs [3; 0]; qs [3; 4]; qs [3; 4]; qs [1; 1]; qs [0; 7]; qs [0; 5]; qs [3; 0]].
Definition ex95 (X : data) := mkCfg KALE X (map (fun r => r@0 * r@1)) (qs [0; 0]) (qs [3; 7]).
Example C95_copied : copied 2 (ex95 ex95X) (ex95 ex95Y).
Proof.
  repeat split; try lia. change (concat (repeat (rows (c_data (ex95 ex95X))) 2)) with (qs [0; 5] :: qs [0; 7] :: qs [1; 1] :: qs [3; 0] :: qs [3; 4] :: [qs [0; 5]; qs [0; 7]; qs [1; 1]; qs [3; 0]; qs [3; 4]]).
  cbn [c_data ex95 ex95Y rows]. do 5 constructor.
  set (a := qs [0; 5]). set (b := qs [0; 7]). set (c := qs [1; 1]). set (d := qs [3; 0]). set (e := qs [3; 4]).
  apply Permutation_sym. apply (Permutation_cons_app [e; c; b] [d]). simpl. apply (Permutation_cons_app [e; c] [d]). simpl.
  apply (Permutation_cons_app [e] [d]). simpl. constructor.
Qed.
Example C95_instance : forall X, X = ex95X \/ X = ex95Y ->
  rmap (fun p => show (fst p)) (snd (eval (ex95 X) (fun v => v) (fresh None) 0 (qs [0; 1; 2; 3]) true (PyBool false))) = Ok [3; 27#4; 33#4; 612500001#50000000]%Q.
Proof. intros X [-> | ->]; vm_compute; reflexivity. Qed.
Theorem C95_single_instance_differs :
  rmap (fun p => option_map show (snd p)) (snd (eval (ex95 ex95X) (fun v => v) (fresh None) 0 (qs [0; 1; 2; 3]) true (PyBool false))) <>
  rmap (fun p => option_map show (snd p)) (snd (eval (ex95 ex95Y) (fun v => v) (fresh None) 0 (qs [0; 1; 2; 3]) true (PyBool false))).
Proof. vm_compute. discriminate. Qed.
Print Assumptions C95_single_instance_differs.
