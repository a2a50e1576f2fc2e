(** RegOrder: regional objects on a dataset and on the same dataset in another order. *)
From Verif Require Import Base Numpy Spec NumpyFacts Utils Helpers Binning GlobalALE GlobalPDP GlobalShap PartSpec Partition PartProofs PartSearch OrderProofs Regional Report.
Open Scope Qc_scope.
Open Scope list_scope.

(** Instances with their effects; [oeff b Q] are the effects if there are any ([b]). *)
Definition pairs := list (list Qc * list Qc).
Definition oeff (b : bool) (Q : pairs) : option Mat := if b then Some (map snd Q) else None.
Definition oeffs (b : bool) (Qs : list pairs) : option (list Mat) := if b then Some (map (map snd) Qs) else None.
Definition perms (Qs Qs' : list pairs) : Prop := Forall2 (@Permutation _) Qs Qs'.

(** * Results related up to a relation *)
Definition rrel {A B} (R : A -> B -> Prop) (a : res A) (b : res B) : Prop :=
  match a, b with Ok x, Ok y => R x y | Raise e, Raise e' => e = e' | _, _ => False end.
Lemma rrel_bind {A B A' B'} (R : A -> A' -> Prop) (S : B -> B' -> Prop) a a' k k' :
  rrel R a a' -> (forall x x', R x x' -> rrel S (k x) (k' x')) -> rrel S (bind a k) (bind a' k').
Proof. destruct a, a'; simpl; try contradiction; [intros H K; now apply K|intros -> _; reflexivity]. Qed.
Lemma rrel_refl {A} (R : A -> A -> Prop) a : (forall x, R x x) -> rrel R a a.
Proof. destruct a; simpl; auto. Qed.
Lemma rrel_eq {A} (a b : res A) : rrel eq a b -> a = b.
Proof. destruct a, b; simpl; try contradiction; congruence. Qed.
Lemma rrel_same {A B B'} (S : B -> B' -> Prop) (a : res A) k k' : (forall x, rrel S (k x) (k' x)) -> rrel S (bind a k) (bind a k').
Proof. intros H. destruct a; simpl; auto. Qed.
Lemma mapM_rel {A A' B} (f : A -> res B) (f' : A' -> res B) (R : A -> A' -> Prop) l l' : Forall2 R l l' -> (forall a a', R a a' -> f a = f' a') -> mapM f l = mapM f' l'.
Proof. intros H K. induction H as [|a a' l l' Ha H IH]; [reflexivity|]. simpl. now rewrite (K _ _ Ha), IH. Qed.
Lemma mapM_ext {A B} (f f' : A -> res B) l : (forall a, f a = f' a) -> mapM f l = mapM f' l.
Proof. intros K. induction l as [|a l IH]; [reflexivity|]. simpl. now rewrite K, IH. Qed.

(** * Splitting *)
Definition side (f : nat) (p : Qc) (t : ftype) (r : list Qc) : bool := match t with Cat => r@f =? p | Cont => r@f <? p end.
Lemma other_side f p t (r : list Qc) : match t with Cat => negb (r@f =? p) | Cont => p <=? r@f end = negb (side f p t r).
Proof. destruct t; simpl; [reflexivity|]. destruct (Qcltb_spec r@f p), (Qcleb_spec p r@f); simpl; auto; exfalso; qlra. Qed.
Lemma mask_pairs {A B} (m : A -> bool) (h : A -> B) Q : map snd (filter fst (combine (map m Q) (map h Q))) = map h (filter m Q).
Proof. induction Q as [|q Q IH]; [reflexivity|]. simpl. destruct (m q); simpl; now rewrite IH. Qed.
Lemma split_pairs (Q : pairs) (o : option Mat) (h : list Qc * list Qc -> list Qc) f p t : match o with None => map fst Q | Some j => j end = map h Q ->
  split_dataset (map fst Q) o f p t = Ok (map h (filter (fun q => side f p t (fst q)) Q), map h (filter (fun q => negb (side f p t (fst q))) Q)).
Proof.
  intros E. unfold split_dataset, mask_rows, col. rewrite !map_map. rewrite E, !map_length, !Nat.eqb_refl. cbn [bind].
  rewrite (map_ext (fun x : list Qc * list Qc => match t with Cat => (fst x)@f =? p | Cont => (fst x)@f <? p end) (fun q => side f p t (fst q))) by reflexivity.
  rewrite (map_ext (fun x : list Qc * list Qc => match t with Cat => negb ((fst x)@f =? p) | Cont => p <=? (fst x)@f end) (fun q => negb (side f p t (fst q)))) by (intros; apply other_side).
  now rewrite !mask_pairs.
Qed.
Definition halves (f : nat) (p : Qc) (t : ftype) (Q : pairs) : list pairs :=
  [filter (fun q => side f p t (fst q)) Q; filter (fun q => negb (side f p t (fst q))) Q].
Lemma flatten_map {A B} (h : A -> B) (l : list (A * A)) : flatten_list (map (fun q => (h (fst q), h (snd q))) l) = map h (flatten_list l).
Proof. unfold flatten_list. induction l as [|q l IH]; [reflexivity|]. simpl. now rewrite IH. Qed.
Lemma flat_halves {B} (h : pairs -> B) f p t Qs :
  flatten_list (map (fun Q => (h (filter (fun q => side f p t (fst q)) Q), h (filter (fun q => negb (side f p t (fst q))) Q))) Qs) = map h (flat_map (halves f p t) Qs).
Proof. unfold flatten_list. induction Qs as [|Q Qs IH]; [reflexivity|]. simpl. now rewrite IH. Qed.
Lemma split_all_pairs Qs f p t : split_all (map (map fst) Qs) f p t = Ok (map (map fst) (flat_map (halves f p t) Qs)).
Proof.
  unfold split_all. rewrite mapM_map. rewrite (mapM_ok _ (fun Q : pairs => ((map fst (filter (fun q => side f p t (fst q)) Q), map fst (filter (fun q => negb (side f p t (fst q))) Q)) : Mat * Mat))).
  - cbn [bind]. f_equal. apply (flat_halves (map fst)).
  - intros Q _. apply (split_pairs Q None fst). reflexivity.
Qed.
Lemma split_effects_pairs b Qs f p t : split_effects (map (map fst) Qs) (oeffs b Qs) f p t = Ok (oeffs b (flat_map (halves f p t) Qs)).
Proof.
  unfold split_effects, oeffs. destruct b; [|reflexivity]. unfold split_all_jac. rewrite combine_two, mapM_map. cbn [fst snd].
  rewrite (mapM_ok _ (fun Q : pairs => ((map snd (filter (fun q => side f p t (fst q)) Q), map snd (filter (fun q => negb (side f p t (fst q))) Q)) : Mat * Mat))).
  - cbn [bind]. do 2 f_equal. apply (flat_halves (map snd)).
  - intros Q _. apply (split_pairs Q (Some (map snd Q)) snd). reflexivity.
Qed.
Lemma perms_halves Qs Qs' f p t : perms Qs Qs' -> perms (flat_map (halves f p t) Qs) (flat_map (halves f p t) Qs').
Proof.
  intros H. induction H as [|Q Q' Qs Qs' HQ H IH]; [constructor|]. simpl. constructor; [now apply filter_permutation|]. constructor; [now apply filter_permutation|exact IH].
Qed.

(** * The search *)
(** [good]: a property of the lists of instances that the regions inherit. *)
Record hereditary (good : pairs -> Prop) : Prop := { her_filter : forall s Q, good Q -> good (filter s Q); her_perm : forall Q Q', good Q -> Permutation Q Q' -> good Q';
  her_data : forall Q, good Q -> good (map (fun q => (fst q, fst q)) Q) }.
Definition symmetric (good : pairs -> Prop) (b : bool) (h : heter_func) : Prop := forall Q Q', good Q -> Permutation Q Q' -> h (map fst Q) (oeff b Q) = h (map fst Q') (oeff b Q').

Section Search.
Context (good : pairs -> Prop) (HG : hereditary good) (b : bool).

Lemma good_halves f p t Qs : Forall good Qs -> Forall good (flat_map (halves f p t) Qs).
Proof. intros H. induction H as [|Q Qs HQ H IH]; [constructor|]. simpl. constructor; [now apply her_filter|]. constructor; [now apply her_filter|exact IH]. Qed.
Lemma sub_heters_pairs h Qs : sub_heters h (map (map fst) Qs) (oeffs b Qs) = mapM (fun Q => h (map fst Q) (oeff b Q)) Qs.
Proof. unfold sub_heters, oeffs, oeff. destruct b; [rewrite combine_two|]; rewrite mapM_map; reflexivity. Qed.
Lemma sub_heters_same h Qs Qs' : symmetric good b h -> Forall good Qs -> perms Qs Qs' -> sub_heters h (map (map fst) Qs) (oeffs b Qs) = sub_heters h (map (map fst) Qs') (oeffs b Qs').
Proof.
  intros HS G H. rewrite !sub_heters_pairs. revert G. induction H as [|Q Q' Qs Qs' HQ H IH]; intros G; [reflexivity|]. inversion G; subst. simpl. rewrite (HS Q Q'), IH by assumption. reflexivity.
Qed.
Lemma lengths_same Qs Qs' : perms Qs Qs' -> map (@length (list Qc)) (map (map fst) Qs) = map (@length (list Qc)) (map (map fst) Qs').
Proof. intros H. induction H as [|Q Q' Qs Qs' HQ H IH]; [reflexivity|]. simpl. rewrite !map_length. f_equal; [now apply Permutation_length|exact IH]. Qed.
Lemma evaluate_same h Qs Qs' before f p t : symmetric good b h -> Forall good Qs -> perms Qs Qs' ->
  evaluate_split h (map (map fst) Qs) (oeffs b Qs) before f p t = evaluate_split h (map (map fst) Qs') (oeffs b Qs') before f p t.
Proof.
  intros HS G H. unfold evaluate_split. rewrite !split_all_pairs, !split_effects_pairs. cbn [bind].
  rewrite (sub_heters_same h _ _ HS (good_halves f p t Qs G) (perms_halves _ _ f p t H)), (lengths_same _ _ (perms_halves _ _ f p t H)). reflexivity.
Qed.

(** Two Regions objects that differ only in the order of the instances. *)
Record same_regions (g g' : regions) : Prop := {
  sg_Q : exists Q Q', good Q /\ Permutation Q Q' /\ rows (g_data g) = map fst Q /\ rows (g_data g') = map fst Q' /\ g_effect g = oeff b Q /\ g_effect g' = oeff b Q';
  sg_dt : dt (g_data g) = dt (g_data g'); sg_dim : dim (g_data g) = dim (g_data g');
  sg_rest : exists X E, g' = mkRegions (g_feature g) (g_heter g) X E (g_types g) (g_names g) (g_cat_limit g) (g_foc g) (g_foc_types g) (g_min_points g) (g_nof_splits g) (g_max_levels g)
              (g_drop_thres g) (g_small_enough g) (g_split_cat g) }.
Context (g g' : regions) (SG : same_regions g g') (HS : symmetric good b (g_heter g)).

Lemma rows_perm : Permutation (rows (g_data g)) (rows (g_data g')).
Proof. destruct (sg_Q _ _ SG) as (Q & Q' & _ & P & -> & -> & _). now apply Permutation_map. Qed.
Lemma same_getcol f : rrel (@Permutation Qc) (getcol (g_data g) f) (getcol (g_data g') f).
Proof. unfold getcol. rewrite <- (sg_dim _ _ SG). destruct (Nat.ltb f (dim (g_data g))); simpl; [|reflexivity]. apply col_permutation, rows_perm. Qed.
Lemma same_cat_positions f : find_positions_cat (g_data g) f = find_positions_cat (g_data g') f.
Proof. apply rrel_eq. unfold find_positions_cat. eapply rrel_bind; [apply same_getcol|]. intros a a' P. simpl. now apply unique_permutation. Qed.
Lemma same_cont_positions f n : find_positions_cont (g_data g) f n = find_positions_cont (g_data g') f n.
Proof.
  apply rrel_eq. unfold find_positions_cont. eapply rrel_bind; [apply same_getcol|]. intros a a' P. rewrite (np_max_permutation _ _ P), (np_min_permutation _ _ P). now apply rrel_refl.
Qed.
Ltac fields := destruct (sg_rest _ _ SG) as (X' & E' & ->); cbn [g_feature g_heter g_data g_effect g_types g_names g_cat_limit g_foc g_foc_types g_min_points g_nof_splits g_max_levels g_drop_thres g_small_enough g_split_cat] in *.
Lemma same_foc : g_foc g' = g_foc g /\ g_foc_types g' = g_foc_types g /\ g_nof_splits g' = g_nof_splits g /\ g_cat_limit g' = g_cat_limit g /\ g_heter g' = g_heter g /\ g_min_points g' = g_min_points g /\
  g_types g' = g_types g /\ g_feature g' = g_feature g /\ g_split_cat g' = g_split_cat g /\ g_max_levels g' = g_max_levels g /\ g_drop_thres g' = g_drop_thres g /\ g_small_enough g' = g_small_enough g /\ g_names g' = g_names g.
Proof. destruct (sg_rest _ _ SG) as (X' & E' & EQ). rewrite EQ. repeat split. Qed.
Lemma same_positions : positions g' = positions g.
Proof.
  unfold positions. destruct same_foc as (-> & -> & -> & _). apply mapM_ext. intros [f t]. cbn [fst snd]. destruct t; [symmetry; apply same_cat_positions|symmetry; apply same_cont_positions].
Qed.
Lemma same_table Qs Qs' before cands : Forall good Qs -> perms Qs Qs' ->
  table g' (map (map fst) Qs') (oeffs b Qs') before cands = table g (map (map fst) Qs) (oeffs b Qs) before cands.
Proof.
  intros G H. unfold table. destruct same_foc as (-> & -> & EN & EC & EH & _). apply mapM_ext. intros q. unfold table_row. rewrite EH. unfold width. rewrite EN, EC.
  apply mapM_ext. intros jp. now rewrite (evaluate_same (g_heter g) Qs Qs') by assumption.
Qed.
Lemma same_level Qs Qs' before : Forall good Qs -> perms Qs Qs' ->
  single_level_splits g' (map (map fst) Qs') (oeffs b Qs') before = single_level_splits g (map (map fst) Qs) (oeffs b Qs) before.
Proof.
  intros G H. apply rrel_eq. unfold single_level_splits. rewrite same_positions. apply rrel_same. intros cands. rewrite (same_table Qs Qs' before cands G H). apply rrel_same. intros tbl.
  destruct same_foc as (EF & ET & EN & EC & EH & _). unfold width. rewrite EF, ET, EN, EC, EH. apply rrel_same. intros k. cbv zeta. apply rrel_same. intros f. apply rrel_same. intros ci. apply rrel_same. intros p.
  apply rrel_same. intros t. rewrite !split_all_pairs, !split_effects_pairs. cbn [bind]. rewrite (sub_heters_same (g_heter g) _ _ HS (good_halves f p t Qs G) (perms_halves _ _ f p t H)).
  apply rrel_same. intros sub. rewrite (lengths_same _ _ (perms_halves _ _ f p t H)). pose proof (same_getcol f) as C. destruct (getcol (g_data g) f) as [c|e], (getcol (g_data g') f) as [c'|e']; simpl in C; try contradiction; [|now subst].
  cbn [bind]. rewrite (np_min_permutation _ _ C), (np_max_permutation _ _ C). now apply rrel_refl.
Qed.
Lemma same_levels n : forall Qs Qs' before acc, Forall good Qs -> perms Qs Qs' ->
  search_levels g' n (map (map fst) Qs') (oeffs b Qs') before acc = search_levels g n (map (map fst) Qs) (oeffs b Qs) before acc.
Proof.
  induction n as [|n IH]; intros Qs Qs' before acc G H; [reflexivity|]. cbn [search_levels]. destruct same_foc as (_ & _ & _ & _ & _ & EM & _). rewrite EM.
  assert (EX : existsb (fun x => Nat.ltb (length x) (g_min_points g)) (map (map fst) Qs') = existsb (fun x => Nat.ltb (length x) (g_min_points g)) (map (map fst) Qs)).
  { pose proof (lengths_same _ _ H) as L. revert L. generalize (map (map (@fst (list Qc) (list Qc))) Qs) (map (map (@fst (list Qc) (list Qc))) Qs'). induction l as [|a l IHl]; intros [|a' l']; simpl; intros L; try discriminate; [reflexivity|]. injection L as -> L. now rewrite (IHl _ L). }
  match goal with |- (if ?u then _ else _) = (if ?v then _ else _) => replace u with v by (symmetry; exact EX); destruct v end; [reflexivity|]. rewrite (same_level Qs Qs' before G H). destruct (single_level_splits g _ _ before) as [s|e]; [|reflexivity]. cbn [bind].
  rewrite !split_all_pairs, !split_effects_pairs. cbn [bind]. apply IH; [now apply good_halves|now apply perms_halves].
Qed.
Lemma same_search : search_all_splits g' = search_all_splits g.
Proof.
  unfold search_all_splits. destruct same_foc as (EF & ET & EN & EC & EH & EM & ETY & EFE & ESC & EMX & _). rewrite EF, EH, ETY, EFE, ESC, EMX.
  destruct (sg_Q _ _ SG) as (Q & Q' & G & P & R & R' & E & E'). rewrite R, R', E, E'. destruct (getn (g_types g) (g_feature g)) as [t|e]; [|reflexivity]. cbn [bind].
  assert (L : length (map fst Q') = length (map fst Q)) by (rewrite !map_length; symmetry; now apply Permutation_length).
  assert (K : (passert (Nat.leb (g_max_levels g) (length (g_foc g))) ;;
      h0 <- g_heter g (map fst Q') (oeff b Q') ;;
      ss <- search_levels g' (g_max_levels g) [map fst Q'] (option_map (fun e => [e]) (oeff b Q')) [h0] [] ;;
      match ss with [] => Ok None | _ => Ok (Some (mkRoot h0 (length (map fst Q')), ss)) end) =
     (passert (Nat.leb (g_max_levels g) (length (g_foc g))) ;;
      h0 <- g_heter g (map fst Q) (oeff b Q) ;;
      ss <- search_levels g (g_max_levels g) [map fst Q] (option_map (fun e => [e]) (oeff b Q)) [h0] [] ;;
      match ss with [] => Ok None | _ => Ok (Some (mkRoot h0 (length (map fst Q)), ss)) end)).
  { destruct (assert_ _) as [u|e]; [|reflexivity]. cbn [bind]. rewrite <- (HS Q Q' G P). destruct (g_heter g (map fst Q) (oeff b Q)) as [h0|e]; [|reflexivity]. cbn [bind].
    assert (O : forall Q, option_map (fun e : Mat => [e]) (oeff b Q) = oeffs b [Q]) by (intros; unfold oeff, oeffs; destruct b; reflexivity). rewrite !O.
    assert (SL := same_levels (g_max_levels g) [Q] [Q'] [h0] [] ltac:(repeat constructor; assumption) ltac:(repeat constructor; assumption)).
    match goal with |- bind ?u _ = bind ?v _ => replace u with v by (symmetry; exact SL) end. now rewrite L. }
  destruct t; [destruct (g_split_cat g); [exact K|reflexivity]|exact K].
Qed.
Lemma same_choose fd : choose_important_splits g' fd = choose_important_splits g fd.
Proof. unfold choose_important_splits. destruct same_foc as (_ & _ & _ & _ & _ & _ & _ & _ & _ & _ & ED & ES & _). now rewrite ED, ES. Qed.
End Search.

(** * The trees *)
Section Tree.
Context (good : pairs -> Prop) (HG : hereditary good) (b : bool).
(** Nodes that differ only in the order of their instances. *)
Definition same_instances (X : Mat) (E : option Mat) (X' : Mat) (E' : option Mat) : Prop :=
  exists Q Q', good Q /\ Permutation Q Q' /\ X = map fst Q /\ X' = map fst Q' /\ E = oeff b Q /\ E' = oeff b Q'.
Definition same_node (n n' : node) : Prop :=
  n_idx n = n_idx n' /\ n_name n = n_name n' /\ n_parent n = n_parent n' /\ n_level n = n_level n' /\ n_heter n = n_heter n' /\ n_weight n = n_weight n' /\ n_nof n = n_nof n' /\
  n_split n = n_split n' /\ same_instances (n_data n) (n_effect n) (n_data n') (n_effect n').
Definition same_tree : tree -> tree -> Prop := Forall2 same_node.

Lemma same_tree_length t t' : same_tree t t' -> length t = length t'.
Proof. induction 1; simpl; congruence. Qed.
Lemma find_same (p p' : node -> bool) t t' : (forall n n', same_node n n' -> p n = p' n') -> same_tree t t' ->
  match find p t, find p' t' with Some n, Some n' => same_node n n' | None, None => True | _, _ => False end.
Proof. intros HP H. induction H as [|n n' t t' Hn H IH]; simpl; [exact I|]. rewrite (HP _ _ Hn). destruct (p' n'); [exact Hn|exact IH]. Qed.
Lemma filter_same (p p' : node -> bool) t t' : (forall n n', same_node n n' -> p n = p' n') -> same_tree t t' -> same_tree (filter p t) (filter p' t').
Proof. intros HP H. induction H as [|n n' t t' Hn H IH]; simpl; [constructor|]. rewrite (HP _ _ Hn). destruct (p' n'); [constructor; assumption|exact IH]. Qed.
Lemma get_node_same t t' nm : same_tree t t' -> match get_node t nm, get_node t' nm with Some n, Some n' => same_node n n' | None, None => True | _, _ => False end.
Proof. apply find_same. intros n n' (_ & E & _). now rewrite E. Qed.

Lemma getn_rel {A B} (R : A -> B -> Prop) l l' i : Forall2 R l l' -> rrel R (getn l i) (getn l' i).
Proof. intros H. unfold getn. revert i. induction H as [|a a' l l' Ha H IH]; intros [|i]; simpl; auto. Qed.
Lemma getn_perms Qs Qs' i : Forall good Qs -> perms Qs Qs' -> rrel (fun Q Q' => good Q /\ Permutation Q Q') (getn Qs i) (getn Qs' i).
Proof. intros G H. apply getn_rel. induction H as [|Q Q' Qs Qs' HQ H IH]; [constructor|]. inversion G; subst. constructor; [split; assumption|auto]. Qed.
Lemma getn_map {A B} (h : A -> B) l i : getn (map h l) i = rmap h (getn l i).
Proof. unfold getn. rewrite nth_error_map. now destruct (nth_error l i). Qed.

Lemma add_node_same t t' nm pn lv h w nof X E X' E' sp : same_tree t t' -> same_instances X E X' E' ->
  rrel same_tree (add_node t nm pn lv h w nof X E sp) (add_node t' nm pn lv h w nof X' E' sp).
Proof.
  intros HT HI. unfold add_node. apply (rrel_bind eq).
  - destruct pn as [p|]; [|reflexivity]. pose proof (get_node_same t t' p HT) as GN. destruct (get_node t p), (get_node t' p); try contradiction; [|reflexivity]. destruct GN as (EI & _). simpl. now rewrite EI.
  - intros p p' <-. simpl. apply Forall2_app; [exact HT|]. constructor; [|constructor]. unfold same_node. cbn [n_idx n_name n_parent n_level n_heter n_weight n_nof n_split n_data n_effect].
    rewrite (same_tree_length _ _ HT). repeat (split; [reflexivity|]). exact HI.
Qed.

Context (g g' : regions) (SG : same_regions good b g g').
Definition parents (pd : list Mat) (pe : list (option Mat)) (pd' : list Mat) (pe' : list (option Mat)) : Prop :=
  exists b' Qs Qs', (b = true -> b' = true) /\ Forall good Qs /\ perms Qs Qs' /\ pd = map (map fst) Qs /\ pd' = map (map fst) Qs' /\ pe = map (oeff b') Qs /\ pe' = map (oeff b') Qs'.
Definition same_lstate (s s' : level_state) : Prop :=
  let '(t, nn, nd, ne) := s in let '(t', nn', nd', ne') := s' in
  same_tree t t' /\ nn = nn' /\ exists Qs Qs', Forall good Qs /\ perms Qs Qs' /\ nd = map (map fst) Qs /\ nd' = map (map fst) Qs'.
Lemma add_level_node_same fmt scale N i s pn pd pe pd' pe' j st st' : parents pd pe pd' pe' -> same_lstate st st' ->
  rrel same_lstate (add_level_node g fmt scale N i s pn pd pe j st) (add_level_node g' fmt scale N i s pn pd' pe' j st').
Proof.
  intros (b' & Qs & Qs' & HB & G & P & -> & -> & -> & ->) HST. destruct st as [[[t nn] nd] ne], st' as [[[t' nn'] nd'] ne']. destruct HST as (HT & <- & Rs & Rs' & GR & PR & -> & ->).
  unfold add_level_node. apply rrel_same. intros parent_name. rewrite !getn_map.
  pose proof (getn_perms Qs Qs' (j / 2) G P) as GP. unfold pairs in *. destruct (getn Qs (j / 2)) as [Q|e], (getn Qs' (j / 2)) as [Q'|e']; simpl in GP; try contradiction; [|rewrite GP; exact (eq_refl e')].
  destruct GP as [GQ PQ]. cbn [rmap bind]. destruct (same_foc _ _ _ _ SG) as (_ & _ & _ & _ & _ & _ & _ & _ & _ & _ & _ & _ & EN). rewrite EN.
  apply rrel_same. intros foc_name. apply rrel_same. intros ps. rewrite !(fun Q => split_pairs Q None fst (s_feature s) (s_position s) (s_type s)) by reflexivity. cbn [bind].
  assert (EE : (forall X, g_effect g = X -> (X = None /\ b = false) \/ (exists e, X = Some e) /\ b = true) /\ (forall X, g_effect g' = X -> (X = None /\ b = false) \/ (exists e, X = Some e) /\ b = true)).
  { destruct (sg_Q _ _ _ _ SG) as (U & U' & _ & _ & _ & _ & -> & ->). unfold oeff. split; intros X <-; destruct b; eauto. }
  destruct EE as [EE EE'].
  set (f := s_feature s). set (p := s_position s). set (ty := s_type s).
  assert (H1 : match g_effect g with Some _ => r <- split_dataset (map fst Q) (oeff b' Q) f p ty ;; Ok (Some (fst r), Some (snd r)) | None => Ok (None, None) end =
     Ok (oeff b (filter (fun q => side f p ty (fst q)) Q), oeff b (filter (fun q => negb (side f p ty (fst q))) Q))).
  { destruct (EE _ eq_refl) as [(-> & ->)|((e & ->) & ->)]; [reflexivity|]. rewrite (HB eq_refl). unfold oeff. rewrite (split_pairs Q (Some (map snd Q)) snd) by reflexivity. reflexivity. }
  assert (H2 : match g_effect g' with Some _ => r <- split_dataset (map fst Q') (oeff b' Q') f p ty ;; Ok (Some (fst r), Some (snd r)) | None => Ok (None, None) end =
     Ok (oeff b (filter (fun q => side f p ty (fst q)) Q'), oeff b (filter (fun q => negb (side f p ty (fst q))) Q'))).
  { destruct (EE' _ eq_refl) as [(-> & ->)|((e & ->) & ->)]; [reflexivity|]. rewrite (HB eq_refl). unfold oeff. rewrite (split_pairs Q' (Some (map snd Q')) snd) by reflexivity. reflexivity. }
  unfold Mat in *. rewrite H1, H2. cbn [bind fst snd]. apply rrel_same. intros h. apply rrel_same. intros n.
  set (W := if Nat.even j then filter (fun q => side f p ty (fst q)) Q else filter (fun q => negb (side f p ty (fst q))) Q).
  set (W' := if Nat.even j then filter (fun q => side f p ty (fst q)) Q' else filter (fun q => negb (side f p ty (fst q))) Q').
  assert (GW : good W) by (unfold W; destruct (Nat.even j); now apply her_filter). assert (PW : Permutation W W') by (unfold W, W'; destruct (Nat.even j); now apply filter_permutation).
  replace (if Nat.even j then map fst (filter (fun q => side f p ty (fst q)) Q) else map fst (filter (fun q => negb (side f p ty (fst q))) Q)) with (map fst W) by (unfold W; now destruct (Nat.even j)).
  replace (if Nat.even j then map fst (filter (fun q => side f p ty (fst q)) Q') else map fst (filter (fun q => negb (side f p ty (fst q))) Q')) with (map fst W') by (unfold W'; now destruct (Nat.even j)).
  replace (if Nat.even j then oeff b (filter (fun q => side f p ty (fst q)) Q) else oeff b (filter (fun q => negb (side f p ty (fst q))) Q)) with (oeff b W) by (unfold W; now destruct (Nat.even j)).
  replace (if Nat.even j then oeff b (filter (fun q => side f p ty (fst q)) Q') else oeff b (filter (fun q => negb (side f p ty (fst q))) Q')) with (oeff b W') by (unfold W'; now destruct (Nat.even j)).
  replace (length (map fst W')) with (length (map fst W)) by (rewrite !map_length; now apply Permutation_length).
  apply (rrel_bind same_tree).
  - apply add_node_same; [exact HT|]. exists W, W'. repeat (split; [assumption || reflexivity|]). unfold W, W'. destruct (Nat.even j); split; reflexivity.
  - intros t1 t1' H. simpl. split; [exact H|]. split; [reflexivity|]. exists (Rs ++ [W]), (Rs' ++ [W']). split; [apply Forall_app; split; [exact GR|repeat constructor; exact GW]|].
    split; [apply Forall2_app; [exact PR|repeat constructor; exact PW]|]. rewrite !map_app. auto.
Qed.
Lemma foldM_same {A S} (R : S -> S -> Prop) (f f' : A -> S -> res S) l : (forall a s s', R s s' -> rrel R (f a s) (f' a s')) -> forall s s', R s s' -> rrel R (foldM f l s) (foldM f' l s').
Proof. intros HF. induction l as [|a l IH]; intros s s' H; simpl; [exact H|]. apply (rrel_bind R); [now apply HF|]. exact IH. Qed.
Lemma add_levels_same fmt scale N ss : forall i t t' pn pd pe pd' pe', same_tree t t' -> parents pd pe pd' pe' ->
  rrel same_tree (add_levels g fmt scale N i ss t pn pd pe) (add_levels g' fmt scale N i ss t' pn pd' pe').
Proof.
  induction ss as [|s ss IH]; intros i t t' pn pd pe pd' pe' HT HP; [exact HT|]. cbn [add_levels].
  apply (rrel_bind same_lstate).
  - apply foldM_same; [intros j st st' H; now apply add_level_node_same|]. split; [exact HT|]. split; [reflexivity|]. exists [], []. repeat split; constructor.
  - intros [[[t1 nn] nd] ne] [[[t1' nn'] nd'] ne'] (HT1 & <- & Qs & Qs' & GQ & PQ & -> & ->). apply IH; [exact HT1|].
    exists true, (map (map (fun q => (fst q, fst q))) Qs), (map (map (fun q => (fst q, fst q))) Qs'). split; [reflexivity|].
    split; [apply Forall_map; eapply Forall_impl; [|exact GQ]; intros Q; apply (her_data _ HG)|].
    split; [clear -PQ; induction PQ; simpl; constructor; [now apply Permutation_map|assumption]|]. rewrite !map_map.
    assert (E1 : forall Us : list pairs, map (map (@fst (list Qc) (list Qc))) Us = map (fun Q => map fst (map (fun q : list Qc * list Qc => (fst q, fst q)) Q)) Us) by (intros; apply map_ext; intros; now rewrite map_map).
    assert (E2 : forall Us : list pairs, map (fun Q : pairs => Some (map fst Q)) Us = map (fun Q => oeff true (map (fun q : list Qc * list Qc => (fst q, fst q)) Q)) Us) by (intros; apply map_ext; intros; unfold oeff; now rewrite map_map).
    split; [apply E1|]. split; [apply E1|]. split; apply E2.
Qed.
Lemma splits_to_tree_same fmt fd imp only scale :
  rrel (fun o o' => match o, o' with Some t, Some t' => same_tree t t' | None, None => True | _, _ => False end)
    (splits_to_tree g fmt fd imp only scale) (splits_to_tree g' fmt fd imp only scale).
Proof.
  unfold splits_to_tree. destruct fd as [[r ss]|]; [|exact I]. destruct (same_foc _ _ _ _ SG) as (_ & _ & _ & _ & _ & _ & _ & EF & _ & _ & _ & _ & EN). rewrite EF, EN.
  destruct (sg_Q _ _ _ _ SG) as (Q & Q' & G & P & R & R' & E & E').
  apply rrel_same. intros nm. apply (rrel_bind same_tree).
  - apply add_node_same; [constructor|]. exists Q, Q'. auto 10.
  - intros t t' HT. apply (rrel_bind same_tree).
    + apply add_levels_same; [exact HT|]. exists b, [Q], [Q']. split; [auto|]. split; [repeat constructor; exact G|]. split; [repeat constructor; exact P|]. rewrite R, R', E, E'. auto.
    + intros t1 t1' H. exact H.
Qed.
End Tree.
