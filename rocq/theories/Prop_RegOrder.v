(** Properties C82 (and C56 for any history): the order of the instances does not matter to a regional object, nor to a PDP/DerPDP object
    after any history of calls. *)
From Verif Require Import Base Numpy Spec NumpyFacts Utils UtilsProofs Helpers HelpersProofs Binning GlobalALE ALEState GlobalPDP PDPProofs GlobalShap PartSpec Partition PartProofs PartSearch OrderProofs Prop_Order Regional Report HeterProofs RegOrder RegOrder2 PDPOrder RegOrder3 Prop_Regional.
Open Scope Qc_scope.
Open Scope list_scope.

(** * C56, after any history *)
(** Two objects with the same row-wise model (and Jacobian), the second on the instances of the first in another order. After the same calls - fits with
    any options and evaluations, of any features, whether they succeed or not - eval returns the same mean and heterogeneity or raises the same exception;
    with return_all it returns the same curves, in the other order (position by position, the rows of the matrix are permutations of each other). *)
Theorem C56_history : forall c g G X Y rt ks f xs het cv vec, row_object c (dim X) g G -> wf_data X -> dt Y = dt X -> dim Y = dim X -> Permutation (rows X) (rows Y) ->
  snd (peval c rt (prun c rt (pfresh X) ks) f xs het cv false vec) = snd (peval c rt (prun c rt (pfresh Y) ks) f xs het cv false vec) /\
  match snd (peval c rt (prun c rt (pfresh X) ks) f xs het cv true vec), snd (peval c rt (prun c rt (pfresh Y) ks) f xs het cv true vec) with
  | Ok (OAll M), Ok (OAll N) => Forall2 (@Permutation Qc) M N
  | Raise e, Raise e' => e = e'
  | _, _ => False
  end.
Proof.
  intros c g G X Y rt ks f xs het cv vec RO W DT DM P. destruct X as [d n Z], Y as [d' n' Z']. cbn [dt dim rows] in *. subst d' n'.
  pose proof (prun_rel c g G d n RO rt ks _ _ (prel_fresh d n Z Z' W P)) as H. split; [now apply (peval_same g G c d n)|].
  destruct (peval_rel c g G d n RO rt _ _ f xs het cv true vec H) as (_ & R).
  assert (ALL : forall st o, snd (peval c rt st f xs het cv true vec) = Ok o -> exists M, o = OAll M).
  { assert (F : forall s ce o, peval_fitted c rt s f xs het ce true vec = Ok o -> exists M, o = OAll M).
    { intros s ce o E. unfold peval_fitted in E. do 5 (apply bind_ok in E as (? & _ & E)). injection E as <-. eauto. }
    intros st o. unfold peval. destruct (prep_cent cv) as [ce|e]; [|discriminate]. destruct (prefit st f ce) as [[|]|e]; [|apply F|discriminate].
    destruct (pfit c st [f] cv default_pts vec) as (s & [u|e]); cbn [snd]; [apply F|discriminate]. }
  destruct (snd (peval c rt (prun c rt (pfresh (mkData d n Z)) ks) f xs het cv true vec)) as [o|e] eqn:E1, (snd (peval c rt (prun c rt (pfresh (mkData d n Z')) ks) f xs het cv true vec)) as [o'|e'] eqn:E2; simpl in R; try contradiction; [|exact R].
  destruct (ALL _ _ E1) as (M & ->), (ALL _ _ E2) as (N & ->). exact R.
Qed.
Print Assumptions C56_history.
(** The hypotheses hold of a concrete object and history (with a fit whose limits drop an instance). *)
Definition ex56c : pconfig := mkPC KPDP (map (fun r => r@0 * r@1)) (qs [0; 10]) (qs [4; 20]).
Definition ex56X := mkData Float64 2 [qs [1; 10]; qs [2; 20]; qs [3; 15]; qs [5; 12]].
Definition ex56Y := mkData Float64 2 [qs [5; 12]; qs [3; 15]; qs [2; 20]; qs [1; 10]].
Definition ex56k : list pcall := [PFit [0%nat] (PyStr "zero_start") (PyInt 5) true; PFit [1%nat] (PyBool true) (PyInt 5) true].
Example C56_history_instance : Permutation (rows ex56X) (rows ex56Y) /\
  rmap (fun o => match o with OMeanStd y s => (map (option_map this) y, map (option_map this) s) | _ => ([], []) end)
    (snd (peval ex56c (fun v => v) (prun ex56c (fun v => v) (pfresh ex56X) ex56k) 0 (qs [3; 4]) true (PyStr "zero_start") false true)) = Ok ([Some 45; Some 60], [Some 150; Some (800 # 3)])%Q /\
  snd (peval ex56c (fun v => v) (prun ex56c (fun v => v) (pfresh ex56X) ex56k) 0 (qs [3; 4]) true (PyStr "zero_start") false true) =
  snd (peval ex56c (fun v => v) (prun ex56c (fun v => v) (pfresh ex56Y) ex56k) 0 (qs [3; 4]) true (PyStr "zero_start") false true).
Proof.
  assert (P : Permutation (rows ex56X) (rows ex56Y)) by (apply (Permutation_rev (rows ex56X))).
  split; [exact P|]. split; [vm_compute; reflexivity|].
  apply (C56_history ex56c (fun r => r@0 * r@1) (fun r => r) ex56X ex56Y (fun v => v) ex56k).
  - split; reflexivity.
  - intros r [<-|[<-|[<-|[<-|[]]]]]; reflexivity.
  - reflexivity.
  - reflexivity.
  - exact P.
Qed.

(** * C82 *)
(** Everything a user sees of the two objects after the same calls. *)
Definition indistinguishable (x : externals) (limit : nat) (c c' : rconfig) (ks : list xcall) : Prop :=
  let st := xrun x c limit qfresh ks in let st' := xrun x c' limit qfresh ks in
  (forall f node_idx xs het cv, snd (reval x c st f node_idx xs het cv) = snd (reval x c' st' f node_idx xs het cv)) /\
  (forall f node_idx xs het cv scale, snd (rplot x c st f node_idx xs het cv scale) = snd (rplot x c' st' f node_idx xs het cv scale)) /\
  (forall fs only scale, snd (show_partitioning x c limit st fs only scale) = snd (show_partitioning x c' limit st' fs only scale)) /\
  (forall fs only scale, snd (describe_subregions x c st fs only scale) = snd (describe_subregions x c' st' fs only scale)).
Lemma indistinguishable_of x limit good (HG : hereditary good) b c c' (okopt : fitopts -> Prop) (SO : same_object good b c c')
  (HH : forall f o h, okopt o -> heter_of x c f o = Ok h -> symmetric good b h)
  (HE : forall Q Q' f xs het cv, good Q -> Permutation Q Q' -> fe_eval x c (map fst Q) (oeff b Q) f xs het cv = fe_eval x c (map fst Q') (oeff b Q') f xs het cv)
  (HD : forall st st' Q Q' f xs het cv, qs_binning st f = qs_binning st' f -> good Q -> Permutation Q Q' ->
    drawn_curve x c st f (map fst Q) (oeff b Q) xs het cv = drawn_curve x c st' f (map fst Q') (oeff b Q') xs het cv)
  (DEF : okopt (default_opts (q_kind c))) ks : Forall (okcall okopt) ks -> indistinguishable x limit c c' ks.
Proof.
  intros OK. assert (S := xrun_same x good HG b c c' okopt SO HH HE HD DEF limit ks OK _ _ (qfresh_same good b)).
  split; [|split; [|split]]; intros.
  - now apply (reval_same x good HG b c c' okopt SO HH HE DEF).
  - now apply (rplot_same x good HG b c c' okopt SO HH HD DEF).
  - now apply (show_partitioning_same x good HG b c c' okopt SO HH DEF).
  - now apply (describe_subregions_same x good HG b c c' okopt SO HH DEF).
Qed.
(** The constructor of a regional class on the two orders. *)
Lemma rconstruct_same x b k d n model nof al types cl names Q Q' gv gv' :
  (initial_effects k (mkData d n (map fst Q)) model gv = Ok (oeff b Q) /\ initial_effects k (mkData d n (map fst Q')) model gv' = Ok (oeff b Q')) ->
  Permutation Q Q' -> keeps_all nof (length Q) ->
  (exists e, rconstruct x k (mkData d n (map fst Q)) model gv nof al types cl names = Raise e /\ rconstruct x k (mkData d n (map fst Q')) model gv' nof al types cl names = Raise e) \/
  (exists c c', rconstruct x k (mkData d n (map fst Q)) model gv nof al types cl names = Ok c /\ rconstruct x k (mkData d n (map fst Q')) model gv' nof al types cl names = Ok c' /\
    q_kind c = k /\ q_model c = model /\ q_data c = mkData d n (map fst Q) /\ (Z.of_nat (length Q) <= q_nof c)%Z /\ forall good : pairs -> Prop, good Q -> same_object good b c c').
Proof.
  intros (E & E') P K. assert (LQ := Permutation_length P). assert (PR : Permutation (map fst Q) (map fst Q')) by now apply Permutation_map.
  unfold rconstruct. rewrite E, E'. cbn [bind rows]. rewrite !map_length, <- LQ.
  assert (NS : exists z, prep_nof_instances (x_choice x) nof (length Q) = Ok (z, seq 0 (length Q)) /\ (Z.of_nat (length Q) <= z)%Z).
  { destruct K as [->|(z & -> & Hz)]; cbn [prep_nof_instances]; [eexists; split; [reflexivity|lia]|]. destruct (Z.ltb_spec z (Z.of_nat (length Q))); [lia|]. eauto. }
  destruct NS as (z & -> & Hz). cbn [bind].
  assert (SR : forall V : pairs, length V = length Q -> select_rows (map fst V) (seq 0 (length Q)) = Ok (map fst V)) by (intros V HV; replace (length Q) with (length (map fst V)) by (rewrite map_length; exact HV); apply select_rows_all).
  assert (SE : forall V : pairs, length V = length Q -> match oeff b V with Some e => rmap Some (select_rows e (seq 0 (length Q))) | None => Ok None end = Ok (oeff b V)).
  { intros V HV. unfold oeff. destruct b; [|reflexivity]. replace (length Q) with (length (map snd V)) by (rewrite map_length; exact HV). now rewrite select_rows_all. }
  rewrite !SR, !SE by congruence. cbn [bind dt dim]. rewrite <- (limits_same d n _ _ PR).
  destruct (match al with Some p => Ok p | None => _ end) as [(mi & ma)|e]; cbn [bind]; [right|left; eauto]. eexists. eexists. split; [reflexivity|]. split; [reflexivity|]. cbn [q_kind q_model q_data q_nof].
  do 4 (split; [solve [auto]|]). intros good HG. constructor.
  - exists Q, Q'. cbn [q_data q_effects rows]. auto 10.
  - exists (mkData d n (map fst Q')), (oeff b Q'). cbn [q_kind q_data q_model q_effects q_mins q_maxs q_types q_cat_limit q_names q_nof dt dim].
    assert (T : get_feature_types (mkData d n (map fst Q)) cl = get_feature_types (mkData d n (map fst Q')) cl).
    { unfold get_feature_types. cbn [rows dim]. apply map_ext. intros f. now rewrite (unique_permutation _ _ (col_permutation _ _ f PR)). }
    rewrite T. auto.
Qed.
Definition same_outcome (P : rconfig -> rconfig -> Prop) (r r' : res rconfig) : Prop := match r, r' with Ok c, Ok c' => P c c' | Raise e, Raise e' => e = e' | _, _ => False end.
Lemma her_ale N : hereditary (fun Q => (Z.of_nat (length Q) <= N)%Z).
Proof.
  constructor.
  - intros s Q H. pose proof (filter_length_le s Q). lia.
  - intros Q Q' H P. now rewrite <- (Permutation_length P).
  - intros Q H. now rewrite map_length.
Qed.
Lemma ale_indistinguishable x limit b c c' ks : ale_class c b -> same_object (fun Q => (Z.of_nat (length Q) <= q_nof c)%Z) b c c' -> indistinguishable x limit c c' ks.
Proof.
  intros AC SO. apply (indistinguishable_of x limit _ (her_ale (q_nof c)) b c c' (fun _ => True) SO).
  - intros f o h _ H Q Q' _ P. now apply (ale_heter x c b AC f o h H).
  - intros. now apply ale_eval.
  - intros. now apply ale_drawn.
  - exact I.
  - apply Forall_forall. intros k _ fs o _. exact I.
Qed.

(** RegionalALE: a row-wise model, all instances used. Any history of fit, eval, plot, show_partitioning and describe_subregions calls, with any arguments;
    the constructor raises the same exception on both datasets, or the two objects cannot be told apart. *)
Theorem C82_ale : forall x limit X X' g nof al types cl names ks, keeps_all nof (length (rows X)) -> dt X = dt X' -> dim X = dim X' -> Permutation (rows X) (rows X') ->
  same_outcome (fun c c' => indistinguishable x limit c c' ks) (rconstruct x RALE X (map g) None nof al types cl names) (rconstruct x RALE X' (map g) None nof al types cl names).
Proof.
  intros x limit [d n Z] [d' n' Z'] g nof al types cl names ks K DT DM P. cbn [dt dim rows] in *. subst d' n'.
  pose (tw := map (fun r : list Qc => (r, @nil Qc))). assert (F : forall V, map fst (tw V) = V) by (intros V; unfold tw; rewrite map_map; simpl; apply map_id).
  pose proof (rconstruct_same x false RALE d n (map g) nof al types cl names (tw Z) (tw Z') None None (conj eq_refl eq_refl) (Permutation_map _ P) ltac:(unfold tw; now rewrite map_length)) as H. rewrite !F in H.
  destruct H as [(e & -> & ->)|(c & c' & -> & -> & KD & MD & DA & NF & SO)]; [reflexivity|]. simpl.
  apply (ale_indistinguishable x limit false); [unfold ale_class; rewrite KD; eauto|]. apply SO. exact NF.
Qed.
Print Assumptions C82_ale.
(** RegionalRHALE: the effects are given by the user (and reordered along: [Q] lists the pairs of an instance and its effects) or computed by a row-wise
    Jacobian, the user's or the numerical one. *)
Theorem C82_rhale_effects : forall x limit jac d n (Q Q' : list (list Qc * list Qc)) model nof al types cl names ks, keeps_all nof (length Q) -> Permutation Q Q' ->
  same_outcome (fun c c' => indistinguishable x limit c c' ks)
    (rconstruct x (RRHALE jac) (mkData d n (map fst Q)) model (Some (map snd Q)) nof al types cl names)
    (rconstruct x (RRHALE jac) (mkData d n (map fst Q')) model (Some (map snd Q')) nof al types cl names).
Proof.
  intros x limit jac d n Q Q' model nof al types cl names ks K P.
  destruct (rconstruct_same x true (RRHALE jac) d n model nof al types cl names Q Q' (Some (map snd Q)) (Some (map snd Q')) (conj eq_refl eq_refl) P K) as [(e & -> & ->)|(c & c' & -> & -> & KD & MD & DA & NF & SO)]; [reflexivity|]. simpl.
  apply (ale_indistinguishable x limit true); [unfold ale_class; now rewrite KD|]. apply SO. exact NF.
Qed.
Print Assumptions C82_rhale_effects.
Theorem C82_rhale : forall x limit jac X X' g nof al types cl names ks, jac = None \/ (exists G, jac = Some (map G)) ->
  keeps_all nof (length (rows X)) -> dt X = dt X' -> dim X = dim X' -> Permutation (rows X) (rows X') ->
  same_outcome (fun c c' => indistinguishable x limit c c' ks) (rconstruct x (RRHALE jac) X (map g) None nof al types cl names) (rconstruct x (RRHALE jac) X' (map g) None nof al types cl names).
Proof.
  intros x limit jac [d n Z] [d' n' Z'] g nof al types cl names ks HJ K DT DM P. cbn [dt dim rows] in *. subst d' n'.
  assert (HE : (exists e, forall V, initial_effects (RRHALE jac) (mkData d n V) (map g) None = Raise e) \/ (exists G, forall V, initial_effects (RRHALE jac) (mkData d n V) (map g) None = Ok (Some (map G V)))).
  { destruct HJ as [->|(G & ->)]; [|right; exists G; reflexivity]. unfold initial_effects. destruct (numerical_rows g d n EPS) as [(e & H)|(G & H)]; [left; exists e|right; exists G]; intros V; rewrite H; reflexivity. }
  destruct HE as [(e & HE)|(G & HE)]; [unfold rconstruct; rewrite !HE; reflexivity|].
  pose (tw := map (fun r : list Qc => (r, G r))). assert (F : forall V, map fst (tw V) = V) by (intros V; unfold tw; rewrite map_map; simpl; apply map_id).
  assert (F2 : forall V, map snd (tw V) = map G V) by (intros V; unfold tw; now rewrite map_map).
  pose proof (rconstruct_same x true (RRHALE jac) d n (map g) nof al types cl names (tw Z) (tw Z') None None ltac:(unfold oeff; now rewrite !F, !F2, !HE) (Permutation_map _ P) ltac:(unfold tw; now rewrite map_length)) as H. rewrite !F in H.
  destruct H as [(e & -> & ->)|(c & c' & -> & -> & KD & MD & DA & NF & SO)]; [reflexivity|]. simpl.
  apply (ale_indistinguishable x limit true); [unfold ale_class; now rewrite KD|]. apply SO. exact NF.
Qed.
Print Assumptions C82_rhale.
(** RegionalPDP and RegionalDerPDP: a row-wise model (and Jacobian), at most 300 instances (the objects built on a node keep 300) and fits whose
    nof_instances option keeps all the instances. *)
Definition keeps_calls (N : nat) (ks : list xcall) : Prop := Forall (fun k => match k with XCall (QFit fs o) => keeps_all (fo_nof o) N | _ => True end) ks.
Theorem C82_pdp : forall x limit k X X' g G nof al types cl names ks,
  k = RPDP \/ k = RDerPDP None \/ (k = RDerPDP (Some (map G)) /\ forall r, length r = dim X -> length (G r) = dim X) ->
  wf_data X -> (length (rows X) <= 300)%nat -> keeps_all nof (length (rows X)) -> keeps_calls (length (rows X)) ks -> dt X = dt X' -> dim X = dim X' -> Permutation (rows X) (rows X') ->
  same_outcome (fun c c' => indistinguishable x limit c c' ks) (rconstruct x k X (map g) None nof al types cl names) (rconstruct x k X' (map g) None nof al types cl names).
Proof.
  intros x limit k [d n Z] [d' n' Z'] g G nof al types cl names ks HK W L300 K KC DT DM P. unfold wf_data in W. cbn [dt dim rows] in *. subst d' n'.
  pose (tw := map (fun r : list Qc => (r, @nil Qc))). assert (F : forall V, map fst (tw V) = V) by (intros V; unfold tw; rewrite map_map; simpl; apply map_id).
  assert (LT : length (tw Z) = length Z) by (unfold tw; now rewrite map_length).
  assert (EF : forall V, initial_effects k V (map g) None = Ok (oeff false (tw Z))) by (intros V; destruct HK as [->|[->|(-> & _)]]; reflexivity).
  pose proof (rconstruct_same x false k d n (map g) nof al types cl names (tw Z) (tw Z') None None (conj (EF _) (EF _)) (Permutation_map _ P) ltac:(now rewrite LT)) as H. rewrite !F in H.
  destruct H as [(e & -> & ->)|(c & c' & -> & -> & KD & MD & DA & NF & SO)]; [reflexivity|]. simpl.
  assert (PC : pdp_class c g G).
  { split; [exact MD|]. rewrite KD, DA. cbn [dim]. destruct HK as [->|[->|(-> & HG)]]; auto. }
  assert (RK : row_ok c (tw Z)).
  { intros q Hq. rewrite DA. cbn [dim]. apply W. rewrite <- (F Z). now apply in_map. }
  pose (good := fun Q : pairs => row_ok c Q /\ (length Q <= length Z)%nat).
  assert (HG : hereditary good).
  { constructor.
    - intros s Q (H1 & H2). split; [intros q Hq; apply H1; apply filter_In in Hq; apply Hq|]. pose proof (filter_length_le s Q). lia.
    - intros Q Q' (H1 & H2) PQ. split; [intros q Hq; apply H1; eapply Permutation_in; [symmetry; exact PQ|exact Hq]|]. now rewrite <- (Permutation_length PQ).
    - intros Q (H1 & H2). split; [|now rewrite map_length]. intros q Hq. apply in_map_iff in Hq as (q0 & <- & H0). simpl. now apply H1. }
  apply (indistinguishable_of x limit good HG false c c' (fun o => keeps_all (fo_nof o) (length Z))).
  - apply SO. split; [exact RK|now rewrite LT].
  - intros f o h KO H Q Q' HQ PQ. exact (pdp_heter x c g G PC (length Z) f o h KO H Q Q' HQ PQ).
  - intros Q Q' f xs het cv (H1 & H2) PQ. apply (pdp_eval x c g G PC); auto. lia.
  - intros st st' Q Q' f xs het cv _ (H1 & H2) PQ. apply (pdp_drawn x c g G PC); auto. lia.
  - rewrite KD. destruct HK as [->|[->|(-> & _)]]; now left.
  - eapply Forall_impl; [|exact KC]. intros [[fs o| |]| |] HC fs' o' E; try discriminate. injection E as <- <-. exact HC.
Qed.
Print Assumptions C82_pdp.

(** Concrete objects on which the search finds a split: the second node exists, and is the same for the reversed dataset. *)
Definition ex82 (k : rkind) (Z : Mat) : res rconfig := rconstruct ex_x k (mkData Float64 3 Z) (map (fun r => r@0 * (Q2Qc 3 * r@1 + r@2))) None (PyStr "all") None (Some [Cont; Cat; Cat]) 4 None.
Definition ex82k : list xcall := [XCall (QFit [0%nat] ex_opts3)].
Definition ex82y (k : rkind) (Z : Mat) := '(c) <- ex82 k Z ;; snd (reval ex_x c (xrun ex_x c 10 qfresh ex82k) 0 1 (qs [0; 1]) true (PyBool false)).
Example C82_instance : Permutation ex_rows3 (rev ex_rows3) /\
  (exists g, ex82y RALE ex_rows3 = Ok g) /\ ex82y RALE ex_rows3 = ex82y RALE (rev ex_rows3) /\
  (exists g, ex82y (RRHALE None) ex_rows3 = Ok g) /\ ex82y (RRHALE None) ex_rows3 = ex82y (RRHALE None) (rev ex_rows3) /\
  (exists g, ex82y RPDP ex_rows3 = Ok g) /\ ex82y RPDP ex_rows3 = ex82y RPDP (rev ex_rows3).
Proof.
  assert (P : Permutation ex_rows3 (rev ex_rows3)) by apply Permutation_rev.
  split; [exact P|].
  assert (FIN : forall k, same_outcome (fun c c' => indistinguishable ex_x 10 c c' ex82k) (ex82 k ex_rows3) (ex82 k (rev ex_rows3)) -> ex82y k ex_rows3 = ex82y k (rev ex_rows3)).
  { intros k H. unfold ex82y. destruct (ex82 k ex_rows3) as [c|e], (ex82 k (rev ex_rows3)) as [c'|e']; simpl in H; try contradiction; [|now rewrite H]. cbn [bind]. apply H. }
  split; [apply is_ok_exists; vm_compute; reflexivity|]. split; [apply FIN, C82_ale; auto; now left|].
  split; [apply is_ok_exists; vm_compute; reflexivity|]. split; [apply FIN, C82_rhale; auto; now left|].
  split; [apply is_ok_exists; vm_compute; reflexivity|]. apply FIN. apply (C82_pdp ex_x 10 RPDP (mkData Float64 3 ex_rows3) (mkData Float64 3 (rev ex_rows3)) _ (fun r => r)); auto.
  - intros r Hr. vm_compute in Hr. repeat (destruct Hr as [<-|Hr]; [reflexivity|]). contradiction.
  - vm_compute. lia.
  - now left.
  - constructor; [now left|constructor].
Qed.
