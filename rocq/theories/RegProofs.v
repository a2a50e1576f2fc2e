(** RegProofs: the regional objects as state machines. *)
From Verif Require Import Base Numpy Spec NumpyFacts Utils Helpers HelpersProofs Binning GlobalALE ALEState GlobalPDP GlobalShap PartSpec Partition Regional.
Open Scope Qc_scope.
Open Scope list_scope.

Lemma Forall2_len {A B} (R : A -> B -> Prop) l l' : Forall2 R l l' -> length l = length l'.
Proof. induction 1; simpl; congruence. Qed.
(** ** Scaling changes only the names *)
Definition same_node (a b : node) : Prop := n_idx a = n_idx b /\ n_data a = n_data b /\ n_effect a = n_effect b.
Definition same_tree (a b : option tree) : Prop :=
  match a, b with None, None => True | Some s, Some t => Forall2 same_node s t | _, _ => False end.
Definition same_level (a b : level_state) : Prop :=
  let '(t, nn, nd, ne) := a in let '(t', nn', nd', ne') := b in Forall2 same_node t t' /\ length nn = length nn' /\ nd = nd' /\ ne = ne'.

Lemma add_node_same t t' nm nm' p p' lv lv' h h' w w' k k' X e sp sp' r r' : Forall2 same_node t t' ->
  add_node t nm p lv h w k X e sp = Ok r -> add_node t' nm' p' lv' h' w' k' X e sp' = Ok r' -> Forall2 same_node r r'.
Proof.
  intros S H H'. unfold add_node in *. apply bind_ok in H as (a & _ & H). apply bind_ok in H' as (a' & _ & H'). injection H as <-. injection H' as <-.
  apply Forall2_app; [exact S|]. constructor; [|constructor]. unfold same_node. simpl. repeat split. exact (Forall2_len _ _ _ S).
Qed.
Lemma add_level_node_same g fmt sc sc' N i s pn pn' pd pe j st st' r r' : same_level st st' ->
  add_level_node g fmt sc N i s pn pd pe j st = Ok r -> add_level_node g fmt sc' N i s pn' pd pe j st' = Ok r' -> same_level r r'.
Proof.
  destruct st as [[[t nn] nd] ne]. destruct st' as [[[t' nn'] nd'] ne']. intros (S1 & S2 & S3 & S4) H H'. subst nd' ne'. unfold add_level_node in *.
  apply bind_ok in H as (a1 & _ & H). apply bind_ok in H' as (b1 & _ & H').
  apply bind_ok in H as (a2 & A2 & H). apply bind_ok in H' as (b2 & B2 & H'). rewrite A2 in B2. injection B2 as <-.
  apply bind_ok in H as (a3 & A3 & H). apply bind_ok in H' as (b3 & B3 & H'). rewrite A3 in B3. injection B3 as <-.
  apply bind_ok in H as (a4 & _ & H). apply bind_ok in H' as (b4 & _ & H').
  apply bind_ok in H as (a5 & _ & H). apply bind_ok in H' as (b5 & _ & H').
  apply bind_ok in H as (a6 & A6 & H). apply bind_ok in H' as (b6 & B6 & H'). rewrite A6 in B6. injection B6 as <-.
  apply bind_ok in H as (a7 & A7 & H). apply bind_ok in H' as (b7 & B7 & H'). rewrite A7 in B7. injection B7 as <-.
  apply bind_ok in H as (a8 & _ & H). apply bind_ok in H' as (b8 & _ & H').
  apply bind_ok in H as (a9 & _ & H). apply bind_ok in H' as (b9 & _ & H').
  apply bind_ok in H as (r1 & R1 & H). apply bind_ok in H' as (r2 & R2 & H'). injection H as <-. injection H' as <-.
  simpl. split; [exact (add_node_same _ _ _ _ _ _ _ _ _ _ _ _ _ _ _ _ _ _ _ _ S1 R1 R2)|]. split; [rewrite !app_length; simpl; lia|]. split; reflexivity.
Qed.
Lemma fold_same g fmt sc sc' N i s pn pn' pd pe js : forall st st' r r', same_level st st' ->
  foldM (add_level_node g fmt sc N i s pn pd pe) js st = Ok r -> foldM (add_level_node g fmt sc' N i s pn' pd pe) js st' = Ok r' -> same_level r r'.
Proof.
  induction js as [|j js IH]; intros st st' r r' S H H'; simpl in *; [injection H as <-; injection H' as <-; exact S|].
  apply bind_ok in H as (a & A & H). apply bind_ok in H' as (b & B & H'). eapply IH; [|exact H|exact H']. exact (add_level_node_same _ _ _ _ _ _ _ _ _ _ _ _ _ _ _ _ S A B).
Qed.
Lemma add_levels_same g fmt sc sc' N ss : forall i t t' pn pn' pd pe r r', Forall2 same_node t t' ->
  add_levels g fmt sc N i ss t pn pd pe = Ok r -> add_levels g fmt sc' N i ss t' pn' pd pe = Ok r' -> Forall2 same_node r r'.
Proof.
  induction ss as [|s ss IH]; intros i t t' pn pn' pd pe r r' S H H'; [injection H as <-; injection H' as <-; exact S|].
  cbn [add_levels] in H, H'. apply bind_ok in H as ([[[t1 nn] nd] ne] & A & H). apply bind_ok in H' as ([[[t2 nn'] nd'] ne'] & B & H').
  destruct (fold_same _ _ _ _ _ _ _ _ _ _ _ _ (t, [], [], []) (t', [], [], []) _ _ (conj S (conj eq_refl (conj eq_refl eq_refl))) A B) as (S1 & _ & -> & ->).
  exact (IH _ _ _ _ _ _ _ _ _ S1 H H').
Qed.
Lemma splits_to_tree_same g fmt fd imp b sc sc' r r' :
  splits_to_tree g fmt fd imp b sc = Ok r -> splits_to_tree g fmt fd imp b sc' = Ok r' -> same_tree r r'.
Proof.
  unfold splits_to_tree. destruct fd as [[rt ss]|]; [|intros H H'; injection H as <-; injection H' as <-; exact I].
  intros H H'. apply bind_ok in H as (nm & NM & H). rewrite NM in H'. cbn [bind] in H'. apply bind_ok in H as (t & T & H). rewrite T in H'. cbn [bind] in H'.
  apply bind_ok in H as (u & U & H). apply bind_ok in H' as (v & V & H'). injection H as <-. injection H' as <-. simpl.
  refine (add_levels_same _ _ _ _ _ _ _ _ _ _ _ _ _ _ _ _ U V). clear. induction t; constructor; [repeat split|assumption].
Qed.

Section RP.
Variable x : externals.
Variable c : rconfig.

(** The node as a function of the tree. *)
Definition pick (t : tree) (node_idx : nat) : option (Mat * option Mat) :=
  option_map (fun n => (n_data n, n_effect n)) (find (fun n => Nat.eqb (n_idx n) node_idx) t).
Lemma pick_same t t' k : Forall2 same_node t t' -> pick t k = pick t' k.
Proof.
  intros S. unfold pick. induction S as [|a b t t' (E1 & E2 & E3) S IH]; [reflexivity|]. simpl. rewrite E1. destruct (Nat.eqb (n_idx b) k); [simpl; now rewrite E2, E3|exact IH].
Qed.
(** What eval returns once the pruned tree [t] of the feature is known. *)
Definition eval_in (t : option tree) (f node_idx : nat) (xs : list Qc) (het : bool) (centering : pyval) : res gout :=
  ce <- prep_centering centering ;;
  match t with
  | None => Raise AssertionError
  | Some t => match pick t node_idx with None => Raise AssertionError | Some (Z, E) => fe_eval x c Z E f xs het ce end
  end.

(** [f] is fitted with partition [p] and pruned tree [t], and the scaled tree, if any, is one of [p]. *)
Definition current (st : qstate) (f : nat) (p : regions * found * list split) (t : option tree) : Prop :=
  qs_fitted st f = true /\ qs_pruned st f = Some t /\ qs_part st f = Some p /\ tree_of x p true None = Ok t /\
  (qs_pruned_scaled st f = None \/ exists sc ts, qs_pruned_scaled st f = Some ts /\ tree_of x p true (Some sc) = Ok ts).
Lemma current_eval st f p t node_idx xs het cv : (f < dim (q_data c))%nat -> current st f p t ->
  reval x c st f node_idx xs het cv = (st, eval_in t f node_idx xs het cv).
Proof.
  intros Hf (F & P & _ & T & SC). unfold reval, rrefit. rewrite (proj2 (Nat.ltb_lt _ _) Hf), F. f_equal. unfold eval_in.
  destruct (prep_centering cv) as [ce|e]; [|reflexivity]. cbn [bind]. unfold node_info. rewrite (proj2 (Nat.ltb_lt _ _) Hf), F, P. cbn [bind].
  destruct t as [t|]; [|reflexivity]. destruct SC as [-> | (sc & ts & -> & TS)].
  - cbn [bind]. unfold pick. destruct (find _ t); reflexivity.
  - destruct p as [[g fd] imp]. pose proof (splits_to_tree_same _ _ _ _ _ _ _ _ _ T TS) as S. destruct ts as [ts|]; [|destruct S]. cbn [bind].
    rewrite (pick_same _ _ node_idx S). unfold pick. destruct (find _ ts); reflexivity.
Qed.

(** ** Which features a call fits *)
Definition fits (f : nat) (k : qcall) : Prop := match k with QFit fs _ => In f fs | _ => False end.
Definition touches (f : nat) (k : qcall) : Prop :=
  match k with QFit fs _ => In f fs | QEval g _ _ _ _ => g = f | QPlot g _ _ _ _ _ => g = f end.
Definition scaled_plot (f : nat) (k : qcall) : Prop := match k with QPlot g _ _ _ _ (Some _) => g = f | _ => False end.

(** The attributes of feature [f]. *)
Definition attrs (st : qstate) (f : nat) := (qs_fitted st f, qs_full st f, qs_pruned st f, qs_part st f, qs_full_scaled st f, qs_pruned_scaled st f, qs_binning st f).
Ltac other := repeat (rewrite upd_other by congruence).
Lemma fit_one_other st g f o : g <> f -> attrs (fst (rfit_one x c st g o)) f = attrs st f.
Proof.
  intros NE. unfold rfit_one. destruct (partition_of x c g o) as [p|e]; [|reflexivity]. destruct (tree_of x p false None) as [t1|e]; [|reflexivity].
  destruct (tree_of x p true None) as [t2|e]; [|unfold attrs; simpl; now other]. destruct (Nat.ltb g (dim (q_data c))); unfold attrs; simpl; now other.
Qed.
Lemma fit_loop_other fs o : forall st f, ~ In f fs -> attrs (fst (rfit_loop x c st fs o)) f = attrs st f.
Proof.
  induction fs as [|g fs IH]; intros st f NI; [reflexivity|]. simpl. pose proof (fit_one_other st g f o (fun E => NI (or_introl E))) as E.
  destruct (rfit_one x c st g o) as [st' [u|e]]; simpl in *; [|exact E]. rewrite IH by tauto. exact E.
Qed.
Lemma rfit_other st fs f o : ~ In f fs -> attrs (fst (rfit x c st fs o)) f = attrs st f.
Proof. intros NI. unfold rfit. destruct (Nat.leb 2 (fo_minpts o)); [now apply fit_loop_other|reflexivity]. Qed.
Lemma refit_other st g f : g <> f -> attrs (fst (rrefit x c st g)) f = attrs st f.
Proof.
  intros NE. unfold rrefit. destruct (Nat.ltb g (dim (q_data c))); [|reflexivity]. destruct (qs_fitted st g); [reflexivity|]. apply rfit_other. simpl. intros [E|[]]. congruence.
Qed.
Lemma store_scaled_other st g f sc : g <> f -> attrs (fst (store_scaled x st g sc)) f = attrs st f.
Proof.
  intros NE. unfold store_scaled. destruct sc; [|reflexivity]. destruct (qs_part st g) as [p|]; [|reflexivity]. destruct (tree_of x p false _); [|reflexivity].
  destruct (tree_of x p true _); unfold attrs; simpl; now other.
Qed.
Lemma qstep_other st k f : ~ touches f k -> attrs (qstep x c st k) f = attrs st f.
Proof.
  destruct k as [fs o|g n xs h ce|g n xs h ce sc]; simpl; intros NT.
  - now apply rfit_other.
  - unfold reval. pose proof (refit_other st g f NT) as E. destruct (rrefit x c st g) as [st' [u|e]]; exact E.
  - unfold rplot. pose proof (refit_other st g f NT) as E. destruct (rrefit x c st g) as [st' [u|e]]; [|exact E]. simpl in E.
    pose proof (store_scaled_other st' g f sc NT) as E2. destruct (store_scaled x st' g sc) as [st2 [u2|e]]; simpl in *; congruence.
Qed.

(** Only scaled plots of [f] change its scaled trees. *)
Lemma fit_one_scaled st g o f : qs_pruned_scaled (fst (rfit_one x c st g o)) f = qs_pruned_scaled st f.
Proof.
  unfold rfit_one. destruct (partition_of x c g o) as [p|e]; [|reflexivity]. destruct (tree_of x p false None) as [t1|e]; [|reflexivity].
  destruct (tree_of x p true None) as [t2|e]; [|reflexivity]. destruct (Nat.ltb g (dim (q_data c))); reflexivity.
Qed.
Lemma rfit_scaled st fs o f : qs_pruned_scaled (fst (rfit x c st fs o)) f = qs_pruned_scaled st f.
Proof.
  unfold rfit. destruct (Nat.leb 2 (fo_minpts o)); [|reflexivity]. revert st. induction fs as [|g fs IH]; intros st; [reflexivity|]. simpl.
  pose proof (fit_one_scaled st g o f) as E. destruct (rfit_one x c st g o) as [st' [u|e]]; simpl in *; [rewrite IH|]; exact E.
Qed.
Lemma refit_scaled st g f : qs_pruned_scaled (fst (rrefit x c st g)) f = qs_pruned_scaled st f.
Proof. unfold rrefit. destruct (Nat.ltb g (dim (q_data c))); [|reflexivity]. destruct (qs_fitted st g); [reflexivity|]. apply rfit_scaled. Qed.
Lemma qstep_scaled st k f : ~ scaled_plot f k -> qs_pruned_scaled (qstep x c st k) f = qs_pruned_scaled st f.
Proof.
  destruct k as [fs o|g n xs h ce|g n xs h ce sc]; simpl; intros NS.
  - apply rfit_scaled.
  - unfold reval. pose proof (refit_scaled st g f) as E. destruct (rrefit x c st g) as [st' [u|e]]; exact E.
  - unfold rplot. pose proof (refit_scaled st g f) as E. destruct (rrefit x c st g) as [st' [u|e]]; [|exact E]. simpl in E.
    destruct sc as [sc|]; [|exact E]. pose proof (store_scaled_other st' g f (Some sc) NS) as E2.
    destruct (store_scaled x st' g (Some sc)) as [st2 [u2|e]]; unfold attrs in E2; simpl in *; congruence.
Qed.
Lemma qrun_scaled ks f : forall st, Forall (fun k => ~ scaled_plot f k) ks -> qs_pruned_scaled (qrun x c st ks) f = qs_pruned_scaled st f.
Proof. induction ks as [|k ks IH]; intros st H; [reflexivity|]. inversion H. subst. change (qs_pruned_scaled (qrun x c (qstep x c st k) ks) f = qs_pruned_scaled st f). rewrite IH by assumption. now apply qstep_scaled. Qed.

(** ** Steps that keep the partition current *)
Lemma attrs_current st st' f p t : attrs st' f = attrs st f -> current st f p t -> current st' f p t.
Proof. intros E. unfold attrs in E. injection E as E1 E2 E3 E4 E5 E6 E7. unfold current. now rewrite E1, E3, E4, E6. Qed.
Lemma refit_current st f p t : (f < dim (q_data c))%nat -> current st f p t -> rrefit x c st f = (st, Ok tt).
Proof. intros Hf (F & _). unfold rrefit. now rewrite (proj2 (Nat.ltb_lt _ _) Hf), F. Qed.
Lemma qstep_current st k f p t : (f < dim (q_data c))%nat -> ~ fits f k -> current st f p t -> current (qstep x c st k) f p t.
Proof.
  intros Hf NF C. destruct k as [fs o|g n xs h ce|g n xs h ce sc].
  - apply (attrs_current st); [|exact C]. now apply qstep_other.
  - destruct (Nat.eq_dec g f) as [->|NE]; [|apply (attrs_current st); [now apply qstep_other|exact C]]. simpl. unfold reval. now rewrite (refit_current st f p t Hf C).
  - destruct (Nat.eq_dec g f) as [->|NE]; [|apply (attrs_current st); [now apply qstep_other|exact C]]. simpl. unfold rplot. rewrite (refit_current st f p t Hf C).
    destruct sc as [sc|]; [|exact C]. unfold store_scaled. pose proof C as (F & P & Q & T & SC). rewrite Q.
    destruct (tree_of x p false (Some sc)) as [t1|e] eqn:E1; [|exact C]. destruct (tree_of x p true (Some sc)) as [t2|e] eqn:E2; [|exact C].
    unfold current. simpl. rewrite !upd_same. repeat split; try assumption. right. eauto.
Qed.
Lemma qrun_current ks f p t : (f < dim (q_data c))%nat -> forall st, Forall (fun k => ~ fits f k) ks -> current st f p t -> current (qrun x c st ks) f p t.
Proof. intros Hf. induction ks as [|k ks IH]; intros st H C; [exact C|]. inversion H. subst. apply (IH (qstep x c st k)); [assumption|]. now apply qstep_current. Qed.

(** ** Fitting *)
Lemma fit_one_ok st f o st' : rfit_one x c st f o = (st', Ok tt) ->
  exists p t, partition_of x c f o = Ok p /\ tree_of x p true None = Ok t /\ qs_fitted st' f = true /\ qs_pruned st' f = Some t /\ qs_part st' f = Some p /\
    qs_pruned_scaled st' f = qs_pruned_scaled st f /\ qs_binning st' f = Some (fo_binning o) /\ (f < dim (q_data c))%nat.
Proof.
  unfold rfit_one. destruct (partition_of x c f o) as [p|e]; [|discriminate]. destruct (tree_of x p false None) as [t1|e]; [|discriminate].
  destruct (tree_of x p true None) as [t2|e] eqn:T2; [|discriminate]. destruct (Nat.ltb_spec f (dim (q_data c))) as [L|L]; [|discriminate]. intros H. injection H as <-. exists p, t2. simpl. rewrite !upd_same. repeat split; assumption.
Qed.
Lemma fit_loop_ok fs o f : forall st st', In f fs -> rfit_loop x c st fs o = (st', Ok tt) ->
  exists p t, partition_of x c f o = Ok p /\ tree_of x p true None = Ok t /\ qs_fitted st' f = true /\ qs_pruned st' f = Some t /\ qs_part st' f = Some p /\
    qs_pruned_scaled st' f = qs_pruned_scaled st f /\ qs_binning st' f = Some (fo_binning o) /\ (f < dim (q_data c))%nat.
Proof.
  induction fs as [|g fs IH]; intros st st' HI H; [destruct HI|]; destruct HI as [E|HI]; simpl in H.
  - subst g. destruct (rfit_one x c st f o) as [st1 [[]|e]] eqn:H1; [|discriminate]. pose proof (fit_one_ok _ _ _ _ H1) as (p & t & A1 & A2 & A3 & A4 & A5 & A6 & A7 & A8).
    destruct (in_dec Nat.eq_dec f fs) as [I|NI].
    + destruct (IH _ _ I H) as (p' & t' & B1 & B2 & B3 & B4 & B5 & B6 & B7). rewrite A6 in B6. eauto 10.
    + pose proof (fit_loop_other fs o st1 f NI) as E. rewrite H in E. unfold attrs in E. simpl in E. injection E as E1 E2 E3 E4 E5 E6 E7.
      exists p, t. rewrite E1, E3, E4, E6, E7. repeat split; assumption.
  - destruct (rfit_one x c st g o) as [st1 [u|e]] eqn:H1; [|discriminate]. destruct (IH _ _ HI H) as (p & t & B1 & B2 & B3 & B4 & B5 & B6 & B7).
    pose proof (fit_one_scaled st g o f) as E. rewrite H1 in E. simpl in E. rewrite E in B6. eauto 10.
Qed.
Lemma rfit_ok fs o f st st' : In f fs -> rfit x c st fs o = (st', Ok tt) -> qs_pruned_scaled st f = None ->
  exists p t, partition_of x c f o = Ok p /\ current st' f p t /\ qs_binning st' f = Some (fo_binning o) /\ (f < dim (q_data c))%nat /\ (2 <= fo_minpts o)%nat.
Proof.
  intros HI H SC. unfold rfit in H. destruct (Nat.leb_spec 2 (fo_minpts o)); [|discriminate]. destruct (fit_loop_ok fs o f st st' HI H) as (p & t & B1 & B2 & B3 & B4 & B5 & B6 & B7 & B8).
  exists p, t. repeat split; try assumption. left. congruence.
Qed.
Lemma fit_alone f o p t1 t2 : partition_of x c f o = Ok p -> tree_of x p false None = Ok t1 -> tree_of x p true None = Ok t2 -> (f < dim (q_data c))%nat -> (2 <= fo_minpts o)%nat ->
  snd (rfit x c qfresh [f] o) = Ok tt /\ current (fst (rfit x c qfresh [f] o)) f p t2.
Proof.
  intros P T1 T2 Hf Hm. unfold rfit. rewrite (proj2 (Nat.leb_le _ _) Hm). simpl. unfold rfit_one. rewrite P, T1, T2, (proj2 (Nat.ltb_lt _ _) Hf). simpl. split; [reflexivity|].
  unfold current. simpl. rewrite !upd_same. repeat split; try assumption. now left.
Qed.
Lemma fit_loop_full fs o f : forall st st', In f fs -> rfit_loop x c st fs o = (st', Ok tt) -> exists p t1, partition_of x c f o = Ok p /\ tree_of x p false None = Ok t1.
Proof.
  induction fs as [|g fs IH]; intros st st' HI H; [destruct HI|]; destruct HI as [E|HI]; simpl in H.
  - subst g. destruct (rfit_one x c st f o) as [st1 [[]|e]] eqn:H1; [|discriminate]. unfold rfit_one in H1. destruct (partition_of x c f o) as [p|e]; [|discriminate].
    destruct (tree_of x p false None) as [t1|e] eqn:T; [|discriminate]. eauto.
  - destruct (rfit_one x c st g o) as [st1 [u|e]]; [|discriminate]. eauto.
Qed.
(** After a successful fit of [f], [f]'s curves are those of a fresh object fitted in the same way. *)
Lemma eval_latest ks1 fs o ks2 f node_idx xs het cv : In f fs ->
  Forall (fun k => ~ scaled_plot f k) ks1 -> Forall (fun k => ~ fits f k) ks2 ->
  snd (rfit x c (qrun x c qfresh ks1) fs o) = Ok tt ->
  snd (reval x c (qrun x c qfresh (ks1 ++ QFit fs o :: ks2)) f node_idx xs het cv) = snd (reval x c (fst (rfit x c qfresh [f] o)) f node_idx xs het cv).
Proof.
  intros HI N1 N2 HF. unfold qrun. rewrite fold_left_app. simpl. change (fold_left (qstep x c) ks1 qfresh) with (qrun x c qfresh ks1).
  destruct (rfit x c (qrun x c qfresh ks1) fs o) as [st' [[]|e]] eqn:E; [|discriminate]. simpl.
  assert (SC : qs_pruned_scaled (qrun x c qfresh ks1) f = None) by now rewrite qrun_scaled.
  destruct (rfit_ok fs o f _ _ HI E SC) as (p & t & P & C & _ & Hf & Hm).
  unfold rfit in E. rewrite (proj2 (Nat.leb_le _ _) Hm) in E. destruct (fit_loop_full fs o f _ _ HI E) as (p' & t1 & P' & T1). rewrite P in P'. injection P' as <-.
  pose proof C as (_ & _ & _ & T2 & _). destruct (fit_alone f o p t1 t P T1 T2 Hf Hm) as [_ C2].
  change (fold_left (qstep x c) ks2 st') with (qrun x c st' ks2).
  rewrite (current_eval _ f p t node_idx xs het cv Hf (qrun_current ks2 f p t Hf st' N2 C)). rewrite (current_eval _ f p t node_idx xs het cv Hf C2). reflexivity.
Qed.
(** A feature nobody touched is fitted with the default options. *)
Lemma attrs_reval st st' f node_idx xs het cv : attrs st f = attrs st' f -> snd (reval x c st f node_idx xs het cv) = snd (reval x c st' f node_idx xs het cv).
Proof.
  intros E. pose proof E as E0. unfold attrs in E. injection E as E1 E2 E3 E4 E5 E6 E7. unfold reval, rrefit. destruct (Nat.ltb f (dim (q_data c))) eqn:Hf; [|reflexivity].
  rewrite E1. destruct (qs_fitted st' f) eqn:F.
  - simpl. unfold node_info. now rewrite Hf, E1, E3, E6, F.
  - unfold rfit. destruct (Nat.leb 2 _); [|reflexivity]. simpl. unfold rfit_one. destruct (partition_of x c f _) as [p|]; [|reflexivity]. destruct (tree_of x p false None) as [t1|]; [|reflexivity].
    destruct (tree_of x p true None) as [t2|]; [|reflexivity]. rewrite Hf. simpl. unfold node_info. rewrite Hf. simpl. now rewrite !upd_same, E6.
Qed.
Lemma qrun_other ks f : forall st, Forall (fun k => ~ touches f k) ks -> attrs (qrun x c st ks) f = attrs st f.
Proof. induction ks as [|k ks IH]; intros st H; [reflexivity|]. inversion H. subst. change (attrs (qrun x c (qstep x c st k) ks) f = attrs st f). rewrite IH by assumption. now apply qstep_other. Qed.
Lemma eval_first ks f node_idx xs het cv : Forall (fun k => ~ touches f k) ks ->
  snd (reval x c (qrun x c qfresh ks) f node_idx xs het cv) = snd (reval x c qfresh f node_idx xs het cv).
Proof. intros H. apply attrs_reval. now apply qrun_other. Qed.
End RP.
