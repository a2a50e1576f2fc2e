(** Property C74: the order of the instances does not matter (ALE, RHALE; PDP in C56).
    [c], [c'] are two objects that differ only in the order of the rows of their data; [ks] is any history of fit/eval calls, with any
    binning methods; [eval] returns the same curve and heterogeneity, or raises the same exception. *)
From Verif Require Import Base Numpy Spec NumpyFacts Utils UtilsProofs LocalProofs Helpers Integrate HelpersProofs Binning GlobalALE ALEState ALEHist OrderProofs.
Open Scope Qc_scope.
Open Scope list_scope.

Definition same_frame (c c' : config) : Prop :=
  dt (c_data c) = dt (c_data c') /\ dim (c_data c) = dim (c_data c') /\ c_mins c = c_mins c' /\ c_maxs c = c_maxs c'.

Theorem C74_ale : forall c c' g rt ks f xs het cv,
  c_kind c = KALE -> c_kind c' = KALE -> c_model c = map g -> c_model c' = map g -> same_frame c c' ->
  Permutation (rows (c_data c)) (rows (c_data c')) ->
  snd (eval c rt (run c rt (fresh None) ks) f xs het cv) = snd (eval c' rt (run c' rt (fresh None) ks) f xs het cv).
Proof.
  intros c c' g rt ks f xs het cv K K' M M' (DT & DM & MI & MA) P. apply same_answers; auto.
  - unfold default_method, method_allowed. rewrite K, K'. auto.
  - intros f0 m. unfold pfit, fit_feature. rewrite K, K'. cbn [snd]. now apply (ale_fit_permutation c c' g).
Qed.
Print Assumptions C74_ale.

(** RHALE with the user's effects: the rows of data_effect are permuted along. [Q] is the list of (instance, effects) pairs. *)
Theorem C74_rhale_effects : forall c c' j j' Q Q' rt ks f xs het cv,
  c_kind c = KRHALE j -> c_kind c' = KRHALE j' -> same_frame c c' ->
  rows (c_data c) = map fst Q -> rows (c_data c') = map fst Q' -> Permutation Q Q' ->
  snd (eval c rt (run c rt (fresh (Some (map snd Q))) ks) f xs het cv) = snd (eval c' rt (run c' rt (fresh (Some (map snd Q'))) ks) f xs het cv).
Proof.
  intros c c' j j' Q Q' rt ks f xs het cv K K' (DT & DM & MI & MA) R R' P. apply same_answers; auto.
  - unfold default_method, method_allowed. rewrite K, K'. auto.
  - intros f0 m. unfold pfit, fit_feature. rewrite K, K'. cbn [snd fresh st_eff].
    apply rhale_fit_permutation; auto; rewrite ?R, ?R', ?map_length; auto.
    rewrite !combine_two. rewrite (map_ext _ (fun q => q)), (map_ext (fun q => (fst q, snd q)) (fun q => q)) by (intros []; reflexivity). now rewrite !map_id.
Qed.
Print Assumptions C74_rhale_effects.

(** RHALE with a row-wise Jacobian, the user's or the numerical one. *)
Lemma rows_effects c c' j j' rt ks f xs het cv :
  c_kind c = KRHALE j -> c_kind c' = KRHALE j' -> same_frame c c' -> Permutation (rows (c_data c)) (rows (c_data c')) ->
  (exists e, compile c j = Raise e /\ compile c' j' = Raise e) \/ (exists G, compile c j = Ok (map G (rows (c_data c))) /\ compile c' j' = Ok (map G (rows (c_data c')))) ->
  snd (eval c rt (run c rt (fresh None) ks) f xs het cv) = snd (eval c' rt (run c' rt (fresh None) ks) f xs het cv).
Proof.
  intros K K' (DT & DM & MI & MA) P D. apply same_answers; auto.
  - unfold default_method, method_allowed. rewrite K, K'. auto.
  - intros f0 m. unfold pfit, fit_feature. rewrite K, K'. cbn [fresh st_eff]. destruct D as [(e & E & E')|(G & E & E')]; rewrite E, E'; cbn [snd]; [reflexivity|].
    apply rhale_fit_permutation; auto; rewrite ?map_length; auto.
    assert (I : forall X : list (list Qc), combine X (map G X) = map (fun r => (r, G r)) X) by (induction X as [|r X IH]; simpl; congruence).
    rewrite !I. now apply Permutation_map.
Qed.
Theorem C74_rhale_jacobian : forall c c' G rt ks f xs het cv,
  c_kind c = KRHALE (Some (map G)) -> c_kind c' = KRHALE (Some (map G)) -> same_frame c c' -> Permutation (rows (c_data c)) (rows (c_data c')) ->
  snd (eval c rt (run c rt (fresh None) ks) f xs het cv) = snd (eval c' rt (run c' rt (fresh None) ks) f xs het cv).
Proof. intros c c' G rt ks f xs het cv K K' S P. apply (rows_effects c c' (Some (map G)) (Some (map G))); auto. right. exists G. auto. Qed.
Print Assumptions C74_rhale_jacobian.
Lemma numerical_rows g d n eps : (exists e, forall X, compute_jacobian_numerically (map g) (mkData d n X) eps = Raise e) \/
  (exists G, forall X, compute_jacobian_numerically (map g) (mkData d n X) eps = Ok (map G X)).
Proof.
  unfold compute_jacobian_numerically. cbn [dt dim rows]. destruct n as [|n].
  - right. exists (fun _ => []). intros X. cbn [seq mapM bind map]. f_equal. induction X as [|r X IH]; [reflexivity|]. cbn [length seq map]. f_equal. rewrite <- seq_shift, map_map. exact IH.
  - destruct d.
    + destruct (eps =? 0) eqn:Z.
      * left. exists NonFinite. intros X. cbn [seq mapM]. unfold add_col. cbn [rows]. rewrite map_map, vzip_map. cbn [bind]. reflexivity.
      * right. exists (fun r => map (fun f => (g (list_updn r f (fun v => v + eps)) - g r) / eps) (seq 0 (S n))). intros X.
        rewrite (mapM_ok _ (fun f => map (fun r => (g (list_updn r f (fun v => v + eps)) - g r) / eps) X)).
        -- cbn [bind]. f_equal. apply (nth_ext _ _ [] []); [now rewrite !map_length, seq_length|]. rewrite map_length, seq_length. intros i Hi.
           rewrite (nth_map_in _ _ _ 0%nat) by (rewrite seq_length; exact Hi). rewrite seq_nth by exact Hi. rewrite map_map. simpl (0 + i)%nat.
           rewrite (nth_map_in _ _ _ []) by exact Hi. apply map_ext. intros k. now rewrite (nth_map_in _ _ _ []) by exact Hi.
        -- intros f _. unfold add_col. cbn [rows]. rewrite map_map, vzip_map. cbn [bind]. unfold broadcast_to. rewrite !map_length, Nat.eqb_refl, map_map. reflexivity.
    + left. exists TypeError. intros X. reflexivity.
Qed.
Theorem C74_rhale_numerical : forall c c' g rt ks f xs het cv,
  c_kind c = KRHALE None -> c_kind c' = KRHALE None -> c_model c = map g -> c_model c' = map g -> same_frame c c' -> Permutation (rows (c_data c)) (rows (c_data c')) ->
  snd (eval c rt (run c rt (fresh None) ks) f xs het cv) = snd (eval c' rt (run c' rt (fresh None) ks) f xs het cv).
Proof.
  intros c c' g rt ks f xs het cv K K' M M' SF P.
  assert (D : (exists e, compile c None = Raise e /\ compile c' None = Raise e) \/ (exists G, compile c None = Ok (map G (rows (c_data c))) /\ compile c' None = Ok (map G (rows (c_data c'))))).
  { unfold compile. rewrite M, M'. destruct SF as (DT & DM & _). destruct (c_data c) as [d n X], (c_data c') as [d' n' X']. cbn [dt dim rows] in *. subst.
    destruct (numerical_rows g d' n' EPS) as [(e & H)|(G & H)]; [left|right]; [exists e|exists G]; split; apply H. }
  now apply (rows_effects c c' None None).
Qed.
Print Assumptions C74_rhale_numerical.

(** The objects as the constructors build them, from a dataset and the same dataset in another order (all instances used, the
    axis limits given or taken from the data). *)
Theorem C74_constructed : forall choice choice' k X X' g nof al rt ks f xs het cv,
  k = KALE \/ k = KRHALE None \/ (exists G, k = KRHALE (Some (map G))) ->
  nof = PyStr "all" \/ (exists n, nof = PyInt n /\ (Z.of_nat (length (rows X)) <= n)%Z) ->
  dt X = dt X' -> dim X = dim X' -> Permutation (rows X) (rows X') ->
  match construct choice k X (map g) nof al None, construct choice' k X' (map g) nof al None with
  | Ok (c, st), Ok (c', st') => snd (eval c rt (run c rt st ks) f xs het cv) = snd (eval c' rt (run c' rt st' ks) f xs het cv)
  | Raise e, Raise e' => e = e'
  | _, _ => False
  end.
Proof.
  intros choice choice' k X X' g nof al rt ks f xs het cv HK HN DT DM P. unfold construct.
  assert (LX := Permutation_length P).
  assert (N1 : exists n, prep_nof_instances choice nof (length (rows X)) = Ok (n, seq 0 (length (rows X)))).
  { destruct HN as [->|(n & -> & Hn)]; simpl; [eauto|]. rewrite (proj2 (Z.ltb_ge n (Z.of_nat (length (rows X)))) Hn). eauto. }
  assert (N2 : exists n, prep_nof_instances choice' nof (length (rows X')) = Ok (n, seq 0 (length (rows X')))).
  { rewrite LX in HN. destruct HN as [->|(n & -> & Hn)]; simpl; [eauto|]. rewrite (proj2 (Z.ltb_ge n (Z.of_nat (length (rows X')))) Hn). eauto. }
  destruct N1 as (n1 & ->), N2 as (n2 & ->). cbn [bind]. rewrite !select_rows_all. cbn [bind].
  assert (NE : forall (U V : list nat), match k, @None Mat with KRHALE _, Some e => rmap Some (select_rows e U) | _, _ => Ok None end = Ok (@None Mat)) by (intros; destruct k; reflexivity).
  rewrite !NE by exact []. cbn [bind].
  assert (AL : (match al with Some p => Ok p | None => axis_limits_from_data (mkData (dt X) (dim X) (rows X)) end) =
               (match al with Some p => Ok p | None => axis_limits_from_data (mkData (dt X') (dim X') (rows X')) end)).
  { destruct al; [reflexivity|]. unfold axis_limits_from_data. cbn [dim rows]. rewrite <- DM.
    assert (Q : forall (h : list Qc -> res Qc), (forall a b, Permutation a b -> h a = h b) -> forall fs, mapM (fun d => h (col (rows X) d)) fs = mapM (fun d => h (col (rows X') d)) fs).
    { intros h Hh fs. induction fs as [|a fs IH]; [reflexivity|]. cbn [mapM]. rewrite (Hh _ _ (col_permutation _ _ a P)), IH. reflexivity. }
    rewrite (Q np_min np_min_permutation), (Q np_max np_max_permutation). reflexivity. }
  match type of AL with ?a = ?b => set (L1 := a) in *; set (L2 := b) in *; clearbody L1 L2; subst L1; destruct L2 as [(mins, maxs)|e] end; cbn [bind]; [|reflexivity].
  assert (SF : same_frame (mkCfg k (mkData (dt X) (dim X) (rows X)) (map g) mins maxs) (mkCfg k (mkData (dt X') (dim X') (rows X')) (map g) mins maxs)) by (unfold same_frame; cbn [c_data c_mins c_maxs dt dim]; auto).
  change (mkSt None (fun _ => None) (fun _ => None) (fun _ => false)) with (fresh None).
  destruct HK as [->|[->|(G & ->)]].
  - now apply (C74_ale _ _ g).
  - now apply (C74_rhale_numerical _ _ g).
  - now apply (C74_rhale_jacobian _ _ G).
Qed.
Print Assumptions C74_constructed.

Definition ex74X := mkData Float64 2 [qs [0; 5]; qs [0; 7]; qs [1; 1]; qs [1; 3]; qs [3; 0]; qs [3; 4]].
Definition ex74Y := mkData Float64 2 [qs [3; 4]; qs [1; 3]; qs [0; 7]; qs [3; 0]; qs [0; 5]; qs [1; 1]].
Definition ex74 (k : kind) (X : data) :=
  p <- construct (fun _ _ => []) k X (map (fun r => r@0 * r@1)) (PyStr "all") None None ;;
  snd (eval (fst p) (fun v => v) (run (fst p) (fun v => v) (snd p) [CallFit [0; 1]%nat (MFixed 2 (Some 0%nat) 2) (PyBool true)]) 0 (qs [0; 1; 2]) true (PyBool true)).
Example C74_instance : Permutation (rows ex74X) (rows ex74Y) /\
  (exists y h, ex74 KALE ex74X = Ok (y, h)) /\ ex74 KALE ex74X = ex74 KALE ex74Y /\ ex74 (KRHALE None) ex74X = ex74 (KRHALE None) ex74Y.
Proof.
  assert (P : Permutation (rows ex74X) (rows ex74Y)).
  { apply NoDup_Permutation.
    - repeat (apply NoDup_cons; [simpl; intuition discriminate|]). apply NoDup_nil.
    - repeat (apply NoDup_cons; [simpl; intuition discriminate|]). apply NoDup_nil.
    - intros r. simpl. tauto. }
  split; [exact P|]. split; [vm_compute; eauto|].
  assert (Q : forall k, k = KALE \/ k = KRHALE None \/ (exists G, k = KRHALE (Some (map G))) -> ex74 k ex74X = ex74 k ex74Y).
  { intros k Hk. pose proof (C74_constructed (fun _ _ => []) (fun _ _ => []) k ex74X ex74Y (fun r => r@0 * r@1) (PyStr "all") None (fun v => v)
      [CallFit [0; 1]%nat (MFixed 2 (Some 0%nat) 2) (PyBool true)] 0 (qs [0; 1; 2]) true (PyBool true) Hk (or_introl eq_refl) eq_refl eq_refl P) as H.
    unfold ex74. destruct (construct _ k ex74X _ _ _ _) as [(c & st)|e], (construct _ k ex74Y _ _ _ _) as [(c' & st')|e']; try contradiction; cbn [bind fst snd]; [exact H|now rewrite H]. }
  split; apply Q; auto.
Qed.
