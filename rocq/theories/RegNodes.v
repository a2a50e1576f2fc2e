(** RegNodes: what the nodes of a fitted regional object contain, and evaluating the global effect there. *)
From Verif Require Import Base Numpy Spec NumpyFacts Utils Helpers HelpersProofs Binning GlobalALE ALEState GlobalPDP GlobalShap
  PartSpec Partition PartProofs PartSearch PartTree PartFacts PartNodes Regional RegProofs.
Open Scope Qc_scope.
Open Scope list_scope.

(** The effect of feature [f] computed by the global class that corresponds to the regional class [k], on the dataset
    [X] (with the effects [E] of its instances, RHALE only): G(X, model, nof_instances=nof).eval(f, xs, het, centering). *)
Definition global_effect (x : externals) (k : rkind) (X : data) (model : Mat -> list Qc) (E : option Mat) (nof : pyval)
    (f : nat) (xs : list Qc) (het : bool) (centering : pyval) : res gout :=
  let ale gk E := '(gc, st) <- construct (x_choice x) gk X model nof None E ;;
                  r <- snd (eval gc (x_rt x) st f xs het centering) ;; Ok (GCurve (fst r) (snd r)) in
  let pdp gk := '(gc, st) <- pconstruct (x_choice x) gk X model nof None ;;
                r <- snd (peval gc (x_rt x) st f xs het centering false true) ;; Ok (GPdp r) in
  match k with
  | RRHALE jac => ale (KRHALE jac) E
  | RALE => ale KALE None
  | RPDP => pdp KPDP
  | RDerPDP jac => pdp (KDer jac)
  | RShap => '(_, gc, st) <- sconstruct (x_choice x) (x_explain x) (x_argsort x) (x_spline x) X nof None ;;
             r <- snd (seval gc st f xs het centering) ;; Ok (GCurve (fst r) (snd r))
  end.
(** The largest dataset the default constructor of the class keeps entirely. *)
Definition kept_entirely (k : rkind) (n : nat) : Prop :=
  match k with RRHALE _ | RALE => True | RPDP | RDerPDP _ => (n <= 300)%nat | RShap => (n <= 100)%nat end.

Lemma prep_twice cv ce : prep_centering cv = Ok ce -> prep_cent ce = prep_cent cv.
Proof.
  intros H. unfold prep_cent. rewrite H. destruct cv as [[]|s| | |]; simpl in H; try discriminate; try (injection H as <-; reflexivity).
  destruct (String.eqb s "zero_start" || String.eqb s "zero_integral")%bool eqn:E; [|discriminate]. injection H as <-. simpl. now rewrite E.
Qed.
Lemma eval_prep gc rt st f xs het cv ce : prep_centering cv = Ok ce -> eval gc rt st f xs het ce = eval gc rt st f xs het cv.
Proof. intros H. unfold eval, fit. now rewrite (prep_twice _ _ H). Qed.
Lemma peval_prep gc rt st f xs het cv ce al v : prep_centering cv = Ok ce -> peval gc rt st f xs het ce al v = peval gc rt st f xs het cv al v.
Proof. intros H. unfold peval, pfit. now rewrite (prep_twice _ _ H). Qed.
Lemma seval_prep gc st f xs het cv ce : prep_centering cv = Ok ce -> seval gc st f xs het ce = seval gc st f xs het cv.
Proof. intros H. unfold seval, sfit. now rewrite (prep_twice _ _ H). Qed.
Lemma nof_enough choice n N : (N <= n)%nat -> rmap snd (prep_nof_instances choice (PyInt (Z.of_nat n)) N) = rmap snd (prep_nof_instances choice (PyStr "all") N).
Proof. intros H. simpl. destruct (Z.ltb_spec (Z.of_nat n) (Z.of_nat N)); [lia|reflexivity]. Qed.
Lemma take_length {A} (l : list A) idx r : take l idx = Ok r -> length r = length idx.
Proof. unfold take. revert r. induction idx as [|a idx IH]; intros r H; simpl in H; [now injection H as <-|]. apply bind_ok in H as (b & _ & H). apply bind_ok in H as (bs & H2 & H). injection H as <-. simpl. f_equal. now apply IH. Qed.
Lemma pconstruct_nof choice k X model n al : (length (rows X) <= n)%nat -> pconstruct choice k X model (PyInt (Z.of_nat n)) al = pconstruct choice k X model (PyStr "all") al.
Proof.
  intros H. unfold pconstruct. pose proof (nof_enough choice n _ H) as E. destruct (prep_nof_instances choice (PyInt (Z.of_nat n)) (length (rows X))) as [[a i]|e]; destruct (prep_nof_instances choice (PyStr "all") (length (rows X))) as [[b j]|e']; simpl in E; try discriminate.
  - injection E as ->. reflexivity.
  - congruence.
Qed.
Lemma sconstruct_nof choice ex ar sp X n al : (length (rows X) <= n)%nat -> sconstruct choice ex ar sp X (PyInt (Z.of_nat n)) al = sconstruct choice ex ar sp X (PyStr "all") al.
Proof.
  intros H. unfold sconstruct. simpl. destruct (Z.ltb_spec (Z.of_nat n) (Z.of_nat (length (rows X)))); [lia|]. cbn [bind].
  destruct (select_rows (rows X) (seq 0 (length (rows X)))) as [rs|e] eqn:E; [|reflexivity]. cbn [bind]. apply take_length in E. rewrite seq_length in E. rewrite E.
  destruct (Z.ltb_spec (Z.of_nat n) (Z.of_nat (length (rows X)))); [lia|]. reflexivity.
Qed.
(** _create_fe_object(...).eval is the global effect of the given instances. *)
Lemma fe_eval_global x c Z E f xs het cv ce : prep_centering cv = Ok ce -> kept_entirely (q_kind c) (length Z) ->
  fe_eval x c Z E f xs het ce = global_effect x (q_kind c) (as_data c Z) (q_model c) E (PyStr "all") f xs het cv.
Proof.
  intros HC HK. unfold fe_eval, global_effect. destruct (q_kind c) as [jac| | |jac|].
  - destruct (construct _ _ _ _ _ _ _) as [[gc st]|e]; [|reflexivity]. cbn [bind]. now rewrite (eval_prep _ _ _ _ _ _ _ _ HC).
  - destruct (construct _ _ _ _ _ _ _) as [[gc st]|e]; [|reflexivity]. cbn [bind]. now rewrite (eval_prep _ _ _ _ _ _ _ _ HC).
  - change 300%Z with (Z.of_nat 300). rewrite pconstruct_nof by exact HK. destruct (pconstruct _ _ _ _ _ _) as [[gc st]|e]; [|reflexivity]. cbn [bind]. now rewrite (peval_prep _ _ _ _ _ _ _ _ _ _ HC).
  - change 300%Z with (Z.of_nat 300). rewrite pconstruct_nof by exact HK. destruct (pconstruct _ _ _ _ _ _) as [[gc st]|e]; [|reflexivity]. cbn [bind]. now rewrite (peval_prep _ _ _ _ _ _ _ _ _ _ HC).
  - change 100%Z with (Z.of_nat 100). rewrite sconstruct_nof by exact HK. destruct (sconstruct _ _ _ _ _ _ _) as [[[i gc] st]|e]; [|reflexivity]. cbn [bind]. now rewrite (seval_prep _ _ _ _ _ _ _ HC).
Qed.

(** ** The nodes *)
(** A regional object whose effects (if any) have one row per instance and that has a name for every feature. *)
Definition wf_reg (c : rconfig) : Prop :=
  aligned (rows (q_data c)) (q_effects c) /\ (dim (q_data c) <= length (q_names c))%nat.
Lemma partition_fields x c f o g fd imp : partition_of x c f o = Ok (g, fd, imp) ->
  search_all_splits g = Ok fd /\ imp = choose_important_splits g fd /\ g_feature g = f /\ g_data g = q_data c /\ g_effect g = q_effects c /\
  g_names g = q_names c /\ length (g_foc_types g) = length (g_foc g) /\ g_small_enough g = fo_small o /\ g_drop_thres g = fo_drop o /\ g_min_points g = fo_minpts o.
Proof.
  intros H. unfold partition_of in H. apply bind_ok in H as (h & _ & H). apply bind_ok in H as (g' & HG & H). apply bind_ok in H as (fd' & HS & H). injection H as <- <- <-.
  unfold regions_init in HG. apply bind_ok in HG as (ft & HF & HG). injection HG as <-. simpl. repeat split; try assumption. now apply mapM_length in HF.
Qed.
Lemma find_idx g fmt scale h0 used l j : (l <= length used)%nat -> (j < 2 ^ l)%nat ->
  find (fun n => Nat.eqb (n_idx n) (2 ^ l - 1 + j)) (tree_to g fmt scale h0 used (length used)) = Some (node_at g fmt scale h0 used l j).
Proof.
  intros Hl Hj. set (t := tree_to g fmt scale h0 used (length used)).
  assert (IX : forall k n, nth_error t k = Some n -> n_idx n = k).
  { intros k n Hk. pose proof Hk as HI. apply nth_error_In in HI. apply in_tree_to in HI as (l' & j' & Hl' & Hj' & ->).
    pose proof (tree_nth g fmt scale h0 used (length used) l' j' Hl' Hj') as HK. rewrite node_at_idx by assumption.
    pose proof (NoDup_map_inv _ _ (tree_to_names g fmt scale h0 used (length used))) as ND. rewrite NoDup_nth_error in ND.
    symmetry. apply ND; [apply nth_error_Some; intros E0; unfold t in Hk; rewrite Hk in E0; discriminate|rewrite HK; exact Hk]. }
  pose proof (tree_nth g fmt scale h0 used (length used) l j Hl Hj) as HK. fold t in HK.
  destruct (find (fun n => Nat.eqb (n_idx n) (2 ^ l - 1 + j)) t) as [n|] eqn:E.
  - apply find_some in E as [I E]. apply Nat.eqb_eq in E. apply In_nth_error in I as [k Hk]. pose proof (IX _ _ Hk) as E2. rewrite E in E2. subst k. congruence.
  - apply nth_error_In in HK. apply (find_none _ _ E) in HK. rewrite node_at_idx in HK by assumption. now rewrite Nat.eqb_refl in HK.
Qed.
Lemma find_absent g fmt scale h0 used k : (2 ^ S (length used) - 1 <= k)%nat -> find (fun n => Nat.eqb (n_idx n) k) (tree_to g fmt scale h0 used (length used)) = None.
Proof.
  intros Hk. destruct (find _ _) as [n|] eqn:E; [|reflexivity]. apply find_some in E as [I E]. apply Nat.eqb_eq in E. apply in_tree_to in I as (l & j & Hl & Hj & ->).
  rewrite node_at_idx in E by assumption. assert (2 ^ l <= 2 ^ length used)%nat by (apply Nat.pow_le_mono_r; lia). simpl in Hk. lia.
Qed.

(** The conditions of the important splits, and the effects a node carries. *)
Definition conditions (imp : list split) : list cond := map cond_of imp.
Lemma eval_nodes x c f o g r ss imp node_idx xs het cv : wf_reg c -> (f < dim (q_data c))%nat -> partition_of x c f o = Ok (g, Some (r, ss), imp) ->
  forall t, tree_of x (g, Some (r, ss), imp) true None = Ok t ->
  (forall l j ce, (l <= length imp)%nat -> (j < 2 ^ l)%nat -> node_idx = (2 ^ l - 1 + j)%nat -> prep_centering cv = Ok ce ->
     let p := nth j (paths l) [] in
     eval_in x c t f node_idx xs het cv =
       fe_eval x c (region (rows (q_data c)) (conditions imp) p)
         (match l with
          | O | 1%nat => option_map (fun e => region_effects (rows (q_data c)) e (conditions imp) p) (q_effects c)
          | _ => option_map (fun _ => region (rows (q_data c)) (conditions imp) p) (q_effects c)
          end) f xs het ce) /\
  ((2 ^ S (length imp) - 1 <= node_idx)%nat -> eval_in x c t f node_idx xs het cv = Raise AssertionError).
Proof.
  intros [WA WN] Hf HP t HT. destruct (partition_fields _ _ _ _ _ _ _ HP) as (SR & EI & EF & ED & EE & EN & LF & _).
  assert (W : wf_regions g) by (split; [exact LF|rewrite ED, EE; exact WA]).
  assert (NM : named g None) by (split; [rewrite EF, EN; lia|split; [rewrite ED, EN; exact WN|exact I]]).
  unfold tree_of in HT. rewrite (search_tree g (x_fmt x) None r ss W NM SR imp true (or_intror EI)) in HT. injection HT as <-. unfold eval_in. split.
  - intros l j ce Hl Hj EI2 HC. set (p := nth j (paths l) []). subst node_idx. rewrite HC. cbn [bind]. unfold pick. rewrite find_idx by assumption. simpl option_map. cbn iota.
    rewrite node_data by assumption. rewrite ED. change (region (rows (q_data c)) (cs imp) (path l j)) with (region (rows (q_data c)) (conditions imp) p). f_equal.
    destruct l as [|[|l]].
    + cbn [node_at n_effect]. simpl in Hj. assert (p = []) as -> by (unfold p; simpl; destruct j as [|[|j]]; reflexivity). rewrite EE. destruct (q_effects c) as [e|]; [|reflexivity]. cbn [option_map]. f_equal. symmetry. apply region_effects_nil. exact WA.
    + cbn [node_at n_effect]. unfold effect_at. rewrite EE, ED. destruct (q_effects c); reflexivity.
    + cbn [node_at n_effect]. unfold effect_at. rewrite EE, ED. destruct (q_effects c); reflexivity.
  - intros HK. destruct (prep_centering cv) as [ce|e] eqn:HC.
    + cbn [bind]. unfold pick. now rewrite find_absent.
    + destruct cv as [[]|s| | |]; simpl in HC; try discriminate; try (injection HC as <-; reflexivity). destruct (String.eqb s "zero_start" || String.eqb s "zero_integral")%bool; [discriminate|]. injection HC as <-. reflexivity.
Qed.
