(** RegOrder2: a regional object and the object on the same instances in another order go through related states and give the
    same answers, provided the heterogeneity function, the evaluation of a node and its drawing do not depend on the order. *)
From Verif Require Import Base Numpy Spec NumpyFacts Utils Helpers Binning GlobalALE GlobalPDP GlobalShap PartSpec Partition PartProofs PartSearch OrderProofs Regional Report RegOrder.
Open Scope Qc_scope.
Open Scope list_scope.

Section Sim.
Context (x : externals) (good : pairs -> Prop) (HG : hereditary good) (b : bool) (c c' : rconfig) (okopt : fitopts -> Prop).
Record same_object : Prop := {
  so_Q : exists Q Q', good Q /\ Permutation Q Q' /\ rows (q_data c) = map fst Q /\ rows (q_data c') = map fst Q' /\ q_effects c = oeff b Q /\ q_effects c' = oeff b Q';
  so_rest : exists X E, c' = mkRC (q_kind c) X (q_model c) E (q_mins c) (q_maxs c) (q_types c) (q_cat_limit c) (q_names c) (q_nof c) /\ dt X = dt (q_data c) /\ dim X = dim (q_data c) }.
Context (SO : same_object).
Context (HH : forall f o h, okopt o -> heter_of x c f o = Ok h -> symmetric good b h).
Context (HE : forall Q Q' f xs het cv, good Q -> Permutation Q Q' -> fe_eval x c (map fst Q) (oeff b Q) f xs het cv = fe_eval x c (map fst Q') (oeff b Q') f xs het cv).
Context (HD : forall st st' Q Q' f xs het cv, qs_binning st f = qs_binning st' f -> good Q -> Permutation Q Q' ->
  drawn_curve x c st f (map fst Q) (oeff b Q) xs het cv = drawn_curve x c st' f (map fst Q') (oeff b Q') xs het cv).
Context (DEF : okopt (default_opts (q_kind c))).

Lemma obj : exists X E, c' = mkRC (q_kind c) X (q_model c) E (q_mins c) (q_maxs c) (q_types c) (q_cat_limit c) (q_names c) (q_nof c) /\ dt X = dt (q_data c) /\ dim X = dim (q_data c).
Proof. apply SO. Qed.
Ltac fields := destruct obj as (X' & E' & EC & ED & EM); try rewrite EC; cbn [q_kind q_data q_model q_effects q_mins q_maxs q_types q_cat_limit q_names q_nof]; try rewrite ED; try rewrite EM.
Lemma obj_heter f o : heter_of x c' f o = heter_of x c f o.
Proof. unfold heter_of, heter_ale, heter_pdp, heter_shap, as_data. fields. reflexivity. Qed.
Lemma obj_eval Z E f xs het cv : fe_eval x c' Z E f xs het cv = fe_eval x c Z E f xs het cv.
Proof. unfold fe_eval, as_data. fields. reflexivity. Qed.
Lemma obj_drawn st Z E f xs het cv : drawn_curve x c' st f Z E xs het cv = drawn_curve x c st f Z E xs het cv.
Proof. unfold drawn_curve, fe_eval, as_data. fields. reflexivity. Qed.
Lemma obj_dim : dim (q_data c') = dim (q_data c). Proof. now fields. Qed.
Lemma obj_kind : q_kind c' = q_kind c. Proof. now fields. Qed.
Lemma obj_names : q_names c' = q_names c. Proof. now fields. Qed.
Lemma obj_types : q_types c' = q_types c. Proof. now fields. Qed.
Lemma obj_cat : q_cat_limit c' = q_cat_limit c. Proof. now fields. Qed.
Lemma obj_dt : dt (q_data c') = dt (q_data c). Proof. now fields. Qed.

(** Related partitions, trees and states. *)
Definition part_rel (p p' : regions * found * list split) : Prop := same_regions good b (fst (fst p)) (fst (fst p')) /\ snd (fst p) = snd (fst p') /\ snd p = snd p'.
Definition otree_rel (o o' : option tree) : Prop := match o, o' with Some t, Some t' => same_tree good b t t' | None, None => True | _, _ => False end.
Definition orel {A} (R : A -> A -> Prop) (o o' : option A) : Prop := match o, o' with Some a, Some a' => R a a' | None, None => True | _, _ => False end.
Record same_state (st st' : qstate) : Prop := {
  ss_fitted : forall f, qs_fitted st f = qs_fitted st' f; ss_full : forall f, orel otree_rel (qs_full st f) (qs_full st' f);
  ss_pruned : forall f, orel otree_rel (qs_pruned st f) (qs_pruned st' f); ss_part : forall f, orel part_rel (qs_part st f) (qs_part st' f);
  ss_fulls : forall f, orel otree_rel (qs_full_scaled st f) (qs_full_scaled st' f); ss_pruneds : forall f, orel otree_rel (qs_pruned_scaled st f) (qs_pruned_scaled st' f);
  ss_binning : forall f, qs_binning st f = qs_binning st' f }.
Lemma upd_rel {A} (R : A -> A -> Prop) (m m' : nat -> A) k v v' : (forall f, R (m f) (m' f)) -> R v v' -> forall f, R (upd m k v f) (upd m' k v' f).
Proof. intros H HV f. unfold upd. destruct (Nat.eqb f k); auto. Qed.
Lemma qfresh_same : same_state qfresh qfresh.
Proof. constructor; intros; simpl; auto. Qed.

Lemma partition_same f o : okopt o -> rrel part_rel (partition_of x c f o) (partition_of x c' f o).
Proof.
  intros OK. unfold partition_of. rewrite obj_heter. destruct (heter_of x c f o) as [h|e] eqn:EH; [|reflexivity]. cbn [bind]. pose proof (HH f o h OK EH) as HSY.
  destruct (so_Q SO) as (Q & Q' & G & P & R & R' & E & E').
  unfold regions_init. rewrite obj_dim, obj_types, obj_names, obj_cat.
  set (foc := match fo_cand o with AllFeatures => _ | Features l => l end). destruct (mapM (getn (q_types c)) foc) as [ft|e]; [|reflexivity]. cbn [bind].
  set (g := mkRegions f h (q_data c) (q_effects c) (q_types c) (q_names c) (q_cat_limit c) foc ft (fo_minpts o) (fo_nsplits o) (fo_depth o) (fo_drop o) (fo_small o) (fo_splitcat o)).
  set (g' := mkRegions f h (q_data c') (q_effects c') (q_types c) (q_names c) (q_cat_limit c) foc ft (fo_minpts o) (fo_nsplits o) (fo_depth o) (fo_drop o) (fo_small o) (fo_splitcat o)).
  assert (SG : same_regions good b g g').
  { constructor; [exists Q, Q'; unfold g, g'; cbn [g_data g_effect]; auto 10| | |exists (q_data c'), (q_effects c'); reflexivity]; unfold g, g'; cbn [g_data]; symmetry; [apply obj_dt|apply obj_dim]. }
  rewrite (same_search good HG b g g' SG HSY). destruct (search_all_splits g) as [fd|e]; [|reflexivity]. cbn [bind]. split; [exact SG|]. split; [reflexivity|]. cbn [snd]. symmetry. apply (same_choose good b g g' SG).
Qed.
Lemma tree_of_same p p' only scale : part_rel p p' -> rrel otree_rel (tree_of x p only scale) (tree_of x p' only scale).
Proof. destruct p as [[g fd] imp], p' as [[g' fd'] imp']. intros (SG & E1 & E2). cbn [fst snd] in *. subst. exact (splits_to_tree_same good HG b g g' SG (x_fmt x) fd' imp' only scale). Qed.

(** A step of both objects: related states, equal results. *)
Definition same_step {A} (a a' : qstate * res A) : Prop := same_state (fst a) (fst a') /\ snd a = snd a'.
Lemma rfit_one_same st st' f o : okopt o -> same_state st st' -> same_step (rfit_one x c st f o) (rfit_one x c' st' f o).
Proof.
  intros OK H. unfold rfit_one. pose proof (partition_same f o OK) as P. destruct (partition_of x c f o) as [p|e], (partition_of x c' f o) as [p'|e']; simpl in P; try contradiction; [|subst; split; [exact H|reflexivity]].
  pose proof (tree_of_same p p' false None P) as T1. destruct (tree_of x p false None) as [t1|e], (tree_of x p' false None) as [t1'|e']; simpl in T1; try contradiction; [|subst; split; [exact H|reflexivity]].
  destruct H as [H1 H2 H3 H4 H5 H6 H7].
  pose proof (tree_of_same p p' true None P) as T2. destruct (tree_of x p true None) as [t2|e], (tree_of x p' true None) as [t2'|e']; simpl in T2; try contradiction.
  2:{ subst. split; [|reflexivity]. constructor; cbn; auto. now apply upd_rel. }
  rewrite obj_dim. destruct (Nat.ltb f (dim (q_data c))); (split; [|reflexivity]); constructor; cbn; auto; now apply upd_rel.
Qed.
Lemma rfit_loop_same fs o : okopt o -> forall st st', same_state st st' -> same_step (rfit_loop x c st fs o) (rfit_loop x c' st' fs o).
Proof.
  intros OK. induction fs as [|f fs IH]; intros st st' H; [split; [exact H|reflexivity]|]. cbn [rfit_loop]. destruct (rfit_one_same st st' f o OK H) as [K1 K2].
  destruct (rfit_one x c st f o) as [s1 r1], (rfit_one x c' st' f o) as [s2 r2]. cbn [fst snd] in *. subst. destruct r2; [now apply IH|split; [exact K1|reflexivity]].
Qed.
Lemma rfit_same fs o st st' : okopt o -> same_state st st' -> same_step (rfit x c st fs o) (rfit x c' st' fs o).
Proof. intros OK H. unfold rfit. destruct (Nat.leb 2 (fo_minpts o)); [now apply rfit_loop_same|split; [exact H|reflexivity]]. Qed.
Lemma rrefit_same st st' f : same_state st st' -> same_step (rrefit x c st f) (rrefit x c' st' f).
Proof.
  intros H. unfold rrefit. rewrite obj_dim, obj_kind. destruct (Nat.ltb f (dim (q_data c))); [|split; [exact H|reflexivity]]. rewrite <- (ss_fitted _ _ H f). destruct (qs_fitted st f); [split; [exact H|reflexivity]|].
  now apply rfit_same.
Qed.
Lemma node_info_same st st' f i : same_state st st' ->
  rrel (fun n n' => snd n = snd n' /\ same_instances good b (fst (fst n)) (snd (fst n)) (fst (fst n')) (snd (fst n'))) (node_info c st f i) (node_info c' st' f i).
Proof.
  intros H. unfold node_info. rewrite obj_dim. destruct (Nat.ltb f (dim (q_data c))); [|reflexivity]. rewrite <- (ss_fitted _ _ H f). apply rrel_same. intros _.
  pose proof (ss_pruned _ _ H f) as P. destruct (qs_pruned st f) as [[t|]|], (qs_pruned st' f) as [[t'|]|]; simpl in P; try contradiction; try reflexivity.
  apply (rrel_bind (same_tree good b)).
  - pose proof (ss_pruneds _ _ H f) as S1. destruct (qs_pruned_scaled st f) as [[u|]|], (qs_pruned_scaled st' f) as [[u'|]|]; simpl in S1; try contradiction; simpl; auto.
  - intros u u' U. pose proof (find_same good b (fun n => Nat.eqb (n_idx n) i) (fun n => Nat.eqb (n_idx n) i) u u' ltac:(intros n n' (EI & _); now rewrite EI) U) as F.
    destruct (find _ u) as [n|], (find _ u') as [n'|]; try contradiction; [|reflexivity]. destruct F as (_ & EN & _ & _ & _ & _ & _ & _ & SI). simpl. auto.
Qed.
Lemma reval_same st st' f i xs het cv : same_state st st' -> same_step (reval x c st f i xs het cv) (reval x c' st' f i xs het cv).
Proof.
  intros H. unfold reval. destruct (rrefit_same st st' f H) as [K1 K2]. destruct (rrefit x c st f) as [s1 r1], (rrefit x c' st' f) as [s2 r2]. cbn [fst snd] in *. subst. destruct r2; [|split; [exact K1|reflexivity]].
  split; [exact K1|]. cbn [snd]. apply rrel_eq. apply rrel_same. intros ce. eapply rrel_bind; [now apply node_info_same|]. intros [[Z E] nm] [[Z' E'] nm'] (_ & Q & Q' & G & P & EZ & EZ' & EE & EE'). cbn [fst snd] in *.
  rewrite obj_eval, EZ, EZ', EE, EE', (HE Q Q') by assumption. now apply rrel_refl.
Qed.
Lemma store_scaled_same st st' f scale : same_state st st' -> same_step (store_scaled x st f scale) (store_scaled x st' f scale).
Proof.
  intros H. unfold store_scaled. destruct scale as [sc|]; [|split; [exact H|reflexivity]]. pose proof (ss_part _ _ H f) as P. destruct (qs_part st f) as [p|], (qs_part st' f) as [p'|]; simpl in P; try contradiction; [|split; [exact H|reflexivity]].
  pose proof (tree_of_same p p' false (Some sc) P) as T1. destruct (tree_of x p false (Some sc)) as [t1|e], (tree_of x p' false (Some sc)) as [t1'|e']; simpl in T1; try contradiction; [|subst; split; [exact H|reflexivity]].
  destruct H as [H1 H2 H3 H4 H5 H6 H7].
  pose proof (tree_of_same p p' true (Some sc) P) as T2. destruct (tree_of x p true (Some sc)) as [t2|e], (tree_of x p' true (Some sc)) as [t2'|e']; simpl in T2; try contradiction.
  - split; [|reflexivity]. constructor; cbn; auto; now apply upd_rel.
  - subst. split; [|reflexivity]. constructor; cbn; auto; now apply upd_rel.
Qed.
Lemma rplot_same st st' f i xs het cv scale : same_state st st' -> same_step (rplot x c st f i xs het cv scale) (rplot x c' st' f i xs het cv scale).
Proof.
  intros H. unfold rplot. destruct (rrefit_same st st' f H) as [K1 K2]. destruct (rrefit x c st f) as [s1 r1], (rrefit x c' st' f) as [s2 r2]. cbn [fst snd] in *. subst. destruct r2; [|split; [exact K1|reflexivity]].
  destruct (store_scaled_same s1 s2 f scale K1) as [L1 L2]. destruct (store_scaled x s1 f scale) as [s3 r3], (store_scaled x s2 f scale) as [s4 r4]. cbn [fst snd] in *. subst. destruct r4; [|split; [exact L1|reflexivity]].
  split; [exact L1|]. cbn [snd]. apply rrel_eq. eapply rrel_bind; [now apply node_info_same|]. intros [[Z E] nm] [[Z' E'] nm'] (_ & Q & Q' & G & P & EZ & EZ' & EE & EE'). cbn [fst snd] in *.
  rewrite obj_drawn, EZ, EZ', EE, EE', (HD s3 s4 Q Q') by (assumption || apply (ss_binning _ _ L1)). now apply rrel_refl.
Qed.
Lemma qstep_same st st' k : (forall fs o, k = QFit fs o -> okopt o) -> same_state st st' -> same_state (qstep x c st k) (qstep x c' st' k).
Proof. intros OK H. destruct k; cbn [qstep]; [apply rfit_same; eauto|now apply reval_same|now apply rplot_same]. Qed.

(** * The reports *)
Lemma tree_map {A} (h : node -> A) t t' : (forall n n', same_node good b n n' -> h n = h n') -> same_tree good b t t' -> map h t = map h t'.
Proof. intros HA H. induction H as [|n n' t t' Hn H IH]; [reflexivity|]. simpl. now rewrite (HA _ _ Hn), IH. Qed.
Lemma level_nodes_same t t' l : same_tree good b t t' -> same_tree good b (get_level_nodes t l) (get_level_nodes t' l).
Proof. apply filter_same. intros n n' (_ & _ & _ & E & _). now rewrite E. Qed.
Lemma children_same t t' nm : same_tree good b t t' -> same_tree good b (get_children t nm) (get_children t' nm).
Proof.
  intros H. apply filter_same; [|exact H]. intros n n' (_ & _ & E & _). rewrite <- E. destruct (n_parent n) as [p|]; [|reflexivity].
  assert (K : match nth_error t p, nth_error t' p with Some a, Some a' => n_name a = n_name a' | None, None => True | _, _ => False end).
  { clear -H. revert p. induction H as [|n n' t t' Hn H IH]; intros [|p]; simpl; auto. apply Hn. apply IH. }
  destruct (nth_error t p), (nth_error t' p); try contradiction; [now rewrite K|reflexivity].
Qed.
Lemma root_same t t' : same_tree good b t t' -> rrel (same_node good b) (get_root t) (get_root t').
Proof.
  intros H. unfold get_root. pose proof (find_same good b (fun n => match n_parent n with None => true | Some _ => false end) (fun n => match n_parent n with None => true | Some _ => false end) t t' ltac:(intros n n' (_ & _ & E & _); now rewrite E) H) as F.
  destruct (find _ t), (find _ t'); try contradiction; [exact F|reflexivity].
Qed.
Lemma line_same n n' : same_node good b n n' -> line_of n = line_of n'.
Proof. intros (E1 & E2 & E3 & E4 & E5 & E6 & E7 & _). unfold line_of. now rewrite E1, E2, E4, E5, E6, E7. Qed.
Lemma show_below_same limit t t' : same_tree good b t t' -> forall n n', same_node good b n n' -> show_below limit t n = show_below limit t' n'.
Proof.
  intros HT. induction limit as [|limit IH]; intros n n' Hn; [reflexivity|]. cbn [show_below]. rewrite (line_same _ _ Hn).
  assert (EN : n_name n = n_name n') by apply Hn. rewrite EN. rewrite (mapM_rel _ (show_below limit t') _ _ _ (children_same t t' (n_name n') HT) IH). reflexivity.
Qed.
Lemma max_level_same t t' : same_tree good b t t' -> max_level t = max_level t'.
Proof.
  intros H. pose proof (tree_map n_level t t' ltac:(intros n n' (_ & _ & _ & E & _); exact E) H) as M. unfold max_level. rewrite <- M. inversion H; subst; reflexivity.
Qed.
Lemma level_stats_same t t' l : same_tree good b t t' -> get_level_stats t l = get_level_stats t' l.
Proof.
  intros H. unfold get_level_stats. apply rrel_eq. eapply rrel_bind; [apply (root_same _ _ H)|]. intros _ _ _. simpl. f_equal. apply tree_map; [|now apply level_nodes_same].
  intros n n' (_ & _ & _ & _ & E1 & E2 & _). now rewrite E1, E2.
Qed.
Lemma stats_loop_same py t t' ls : same_tree good b t t' -> forall prev, stats_loop py t prev ls = stats_loop py t' prev ls.
Proof.
  intros H. induction ls as [|l ls IH]; intros prev; [reflexivity|]. cbn [stats_loop]. rewrite <- (level_stats_same t t' l H). destruct (get_level_stats t l) as [h|e]; [|reflexivity]. cbn [bind].
  destruct (match l with O => _ | S _ => _ end); [|reflexivity]. cbn [bind]. now rewrite IH.
Qed.
Context (limit : nat).
Lemma report_tree_same o o' : otree_rel o o' -> report_tree c limit o = report_tree c' limit o'.
Proof.
  intros H. destruct o as [t|], o' as [t'|]; simpl in H; try contradiction; [|reflexivity]. unfold report_tree. rewrite obj_kind.
  assert (E1 : show_full_tree limit t = show_full_tree limit t').
  { unfold show_full_tree. apply rrel_eq. eapply rrel_bind; [apply (root_same _ _ H)|]. intros n n' Hn. rewrite (show_below_same limit t t' H n n' Hn). now apply rrel_refl. }
  rewrite E1. unfold show_level_stats. rewrite (max_level_same _ _ H). destruct (show_full_tree limit t'); [|reflexivity]. cbn [bind]. destruct (max_level t'); [|reflexivity]. cbn [bind]. now rewrite (stats_loop_same _ t t' _ H).
Qed.
Lemma scaled_tree_same st st' f only sc : same_state st st' -> rrel otree_rel (scaled_tree x st f only sc) (scaled_tree x st' f only sc).
Proof. intros H. unfold scaled_tree. pose proof (ss_part _ _ H f) as P. destruct (qs_part st f), (qs_part st' f); simpl in P; try contradiction; [now apply tree_of_same|reflexivity]. Qed.
Lemma shown_tree_same st st' f only scale : same_state st st' -> rrel otree_rel (shown_tree x st f only scale) (shown_tree x st' f only scale).
Proof.
  intros H. unfold shown_tree. destruct scale as [l|].
  - eapply rrel_bind; [now apply scaled_tree_same|]. intros a a' A. eapply rrel_bind; [now apply scaled_tree_same|]. intros u u' U. simpl. now destruct only.
  - destruct only; [pose proof (ss_pruned _ _ H f) as P; destruct (qs_pruned st f), (qs_pruned st' f)|pose proof (ss_full _ _ H f) as P; destruct (qs_full st f), (qs_full st' f)]; simpl in P; try contradiction; try reflexivity; exact P.
Qed.
Lemma report_loop_same {A} (r r' : qstate -> nat -> res A) fs : (forall st st' f, same_state st st' -> r st f = r' st' f) ->
  forall st st', same_state st st' -> same_step (report_loop x c r st fs) (report_loop x c' r' st' fs).
Proof.
  intros HR. induction fs as [|f fs IH]; intros st st' H; [split; [exact H|reflexivity]|]. cbn [report_loop].
  destruct (rrefit_same st st' f H) as [K1 K2]. destruct (rrefit x c st f) as [s1 r1], (rrefit x c' st' f) as [s2 r2]. cbn [fst snd] in *. subst. destruct r2; [|split; [exact K1|reflexivity]].
  rewrite (HR _ _ f K1). destruct (r' s2 f) as [aa|ee]; [|split; [exact K1|reflexivity]]. destruct (IH s1 s2 K1) as [L1 L2]. destruct (report_loop x c r s1 fs), (report_loop x c' r' s2 fs). cbn [fst snd] in *. subst. split; [exact L1|reflexivity].
Qed.
Lemma show_partitioning_same st st' fs only scale : same_state st st' -> same_step (show_partitioning x c limit st fs only scale) (show_partitioning x c' limit st' fs only scale).
Proof.
  intros H. apply report_loop_same; [|exact H]. intros s s' f K. apply rrel_eq. eapply rrel_bind; [now apply shown_tree_same|]. intros t t' T. rewrite (report_tree_same t t' T). now apply rrel_refl.
Qed.
Lemma weighted_sum_same t t' : same_tree good b t t' -> weighted_sum t = weighted_sum t'.
Proof. intros H. unfold weighted_sum. f_equal. apply tree_map; [|exact H]. intros n n' (_ & _ & _ & _ & E1 & E2 & _). now rewrite E1, E2. Qed.
Lemma describe_level_same t t' scale l : same_tree good b t t' -> describe_level c t scale l = describe_level c' t' scale l.
Proof.
  intros H. unfold describe_level. rewrite obj_names. pose proof (level_nodes_same t t' l H) as L. pose proof (level_nodes_same t t' (l - 1) H) as L'.
  apply rrel_eq. eapply rrel_bind; [exact (getn_rel _ _ _ 0 L)|]. intros n n' (_ & _ & _ & _ & _ & _ & _ & ES & _). rewrite ES. apply rrel_same. intros [[[foc ty] pos] cm]. apply rrel_same. intros nm. apply rrel_same. intros ps.
  rewrite (weighted_sum_same _ _ L), (weighted_sum_same _ _ L'). apply rrel_same. intros pc.
  rewrite (tree_map n_nof _ _ ltac:(intros u u' (_ & _ & _ & _ & _ & _ & E & _); exact E) L), (tree_map n_nof _ _ ltac:(intros u u' (_ & _ & _ & _ & _ & _ & E & _); exact E) L'). reflexivity.
Qed.
Lemma describe_feature_same st st' f only scale : same_state st st' -> describe_feature c only scale st f = describe_feature c' only scale st' f.
Proof.
  intros H. unfold describe_feature. rewrite obj_names. pose proof (ss_full _ _ H f) as F. destruct (qs_full st f) as [o|], (qs_full st' f) as [o'|]; simpl in F; try contradiction; [|reflexivity]. cbn [bind].
  destruct o as [t|], o' as [t'|]; simpl in F; try contradiction; [|reflexivity]. apply rrel_eq. apply rrel_same. intros _.
  apply (rrel_bind otree_rel).
  - destruct only; [|exact F]. pose proof (ss_pruned _ _ H f) as P. destruct (qs_pruned st f) as [[u|]|], (qs_pruned st' f) as [[u'|]|]; simpl in P; try contradiction; try reflexivity.
    simpl. rewrite (same_tree_length good b _ _ P). destruct (Nat.eqb (length u') 1); [exact I|exact P].
  - intros u u' U. destruct u as [u|], u' as [u'|]; simpl in U; try contradiction; [|reflexivity]. rewrite (max_level_same _ _ U). apply rrel_same. intros m.
    rewrite (mapM_ext (describe_level c u scale) (describe_level c' u' scale)) by (intros; now apply describe_level_same). now apply rrel_refl.
Qed.
Lemma describe_subregions_same st st' fs only scale : same_state st st' -> same_step (describe_subregions x c st fs only scale) (describe_subregions x c' st' fs only scale).
Proof. intros H. apply report_loop_same; [|exact H]. intros s s' f K. now apply describe_feature_same. Qed.
Definition okcall (k : xcall) : Prop := forall fs o, k = XCall (QFit fs o) -> okopt o.
Lemma xrun_same ks : Forall okcall ks -> forall st st', same_state st st' -> same_state (xrun x c limit st ks) (xrun x c' limit st' ks).
Proof.
  intros OK. induction OK as [|k ks Hk OK IH]; intros st st' H; [exact H|]. cbn [xrun fold_left]. apply IH. destruct k; cbn [xstep].
  - apply qstep_same; [|exact H]. intros fs o ->. exact (Hk fs o eq_refl).
  - now apply show_partitioning_same.
  - now apply describe_subregions_same.
Qed.
End Sim.
