(** PartNodes: navigation in the trees built by splits_to_tree, and the trees of a completed search. *)
From Verif Require Import Base Numpy Spec NumpyFacts Utils PartSpec Partition PartProofs PartSearch PartTree PartFacts.
Open Scope Qc_scope.
Open Scope list_scope.

Lemma filter_none {A} (p : A -> bool) l : (forall a, In a l -> p a = false) -> filter p l = [].
Proof. induction l as [|a l IH]; simpl; intros H; [reflexivity|]. rewrite (H a) by now left. apply IH. intros; apply H; now right. Qed.
Lemma filter_every {A} (p : A -> bool) l : (forall a, In a l -> p a = true) -> filter p l = l.
Proof. induction l as [|a l IH]; simpl; intros H; [reflexivity|]. rewrite (H a) by now left. f_equal. apply IH. intros; apply H; now right. Qed.
Lemma filter_map_ {A B} (p : B -> bool) (f : A -> B) l : filter p (map f l) = map f (filter (fun a => p (f a)) l).
Proof. induction l as [|a l IH]; simpl; [reflexivity|]. destruct (p (f a)); simpl; now rewrite IH. Qed.
Lemma filter_ext_in' {A} (p q : A -> bool) l : (forall a, In a l -> p a = q a) -> filter p l = filter q l.
Proof. induction l as [|a l IH]; simpl; intros H; [reflexivity|]. rewrite (H a) by now left. rewrite IH; [reflexivity|]. intros; apply H; now right. Qed.
Lemma filter_half n j : (j < n)%nat -> filter (fun k => Nat.eqb (k / 2) j) (seq 0 (2 * n)) = [2 * j; 2 * j + 1]%nat.
Proof.
  intros H. replace (2 * n)%nat with (2 * j + (2 + 2 * (n - j - 1)))%nat by lia. rewrite !seq_app, !filter_app. simpl plus.
  rewrite filter_none. 2:{ intros a Ha. apply in_seq in Ha. apply Nat.eqb_neq. assert (a / 2 < j)%nat by (apply Nat.div_lt_upper_bound; lia). lia. }
  assert (E0 : (2 * j / 2)%nat = j) by (rewrite Nat.mul_comm; apply Nat.div_mul; lia).
  assert (E1 : (S (2 * j) / 2)%nat = j) by (symmetry; apply (Nat.div_unique _ 2 j 1); lia).
  replace (seq (2 * j) 2) with [2 * j; S (2 * j)]%nat by reflexivity.
  rewrite (filter_every _ [2 * j; S (2 * j)]%nat).
  2:{ intros a [<-|[<-|[]]]; apply Nat.eqb_eq; assumption. }
  rewrite filter_none; [simpl; repeat f_equal; lia|].
  intros a Ha. apply in_seq in Ha. apply Nat.eqb_neq. assert (j + 1 <= a / 2)%nat by (apply Nat.div_le_lower_bound; lia). lia.
Qed.

(** The subregions of a level are a partition of the instances. *)
Lemma region_partition X cs n : (n <= length cs)%nat -> Permutation (concat (map (region X cs) (paths n))) X.
Proof.
  induction n as [|n IH]; intros H.
  - simpl. rewrite region_nil, app_nil_r. apply Permutation_refl.
  - eapply perm_trans; [|apply IH; lia]. rewrite paths_S, map_flat_map.
    assert (E : forall ps, (forall p, In p ps -> length p = n) ->
       Permutation (concat (flat_map (fun a => map (region X cs) [a ++ [true]; a ++ [false]]) ps)) (concat (map (region X cs) ps))).
    { induction ps as [|p ps IHp]; intros HP; simpl; [apply Permutation_refl|].
      rewrite <- (region_firstn X cs (p ++ [true]) (S n)), <- (region_firstn X cs (p ++ [false]) (S n)) by (rewrite app_length; simpl; rewrite (HP p) by (now left); lia).
      assert (ES : firstn (S n) cs = firstn n cs ++ [nth n cs (0%nat, Cont, 0)]).
      { clear - H. revert n H. induction cs as [|c cs IHc]; intros [|n] H; simpl in *; try lia; [reflexivity|]. f_equal. apply IHc. lia. }
      rewrite ES. assert (LP : length p = length (firstn n cs)) by (rewrite firstn_length, (HP p) by (now left); lia).
      rewrite !region_app by assumption. rewrite region_firstn by (rewrite (HP p) by (now left); lia).
      rewrite app_assoc. apply Permutation_app; [|apply IHp; intros; apply HP; now right].
      symmetry. set (c := nth n cs _).
      rewrite (filter_ext_in' (fun r => Bool.eqb (satisfies c r) true) (satisfies c)) by (intros; apply eqb_true_id).
      rewrite (filter_ext_in' (fun r => Bool.eqb (satisfies c r) false) (fun r => negb (satisfies c r))) by (intros; apply eqb_false_negb).
      apply partition_perm. }
    apply E. intros p Hp. now apply paths_len in Hp.
Qed.
Lemma sumn_lengths {A} (l : list (list A)) : sumn (map (@length _) l) = length (concat l).
Proof. induction l as [|a l IH]; simpl; [reflexivity|]. rewrite app_length. f_equal. exact IH. Qed.

Section Nodes.
Context (g : regions) (fmt : Qc -> string) (scale : option (list (Qc * Qc))) (h0 : Qc) (ss : list split).
Notation X := (rows (g_data g)).
Notation cs := (map cond_of ss).
Notation nd := (node_at g fmt scale h0 ss).
Notation lv := (level_nodes g fmt scale h0 ss).
Notation tr := (tree_to g fmt scale h0 ss).

Lemma level_of_tree L l : get_level_nodes (tr L) l = if Nat.leb l L then lv l else [].
Proof.
  unfold get_level_nodes. induction L as [|L IH].
  - destruct l; reflexivity.
  - simpl tree_to. rewrite filter_app, IH. destruct (Nat.eq_dec l (S L)) as [->|NE].
    + destruct (Nat.leb_spec (S L) L); [lia|]. rewrite Nat.leb_refl. simpl. apply filter_every.
      intros a Ha. apply in_level_nodes in Ha as (j & Hj & ->). rewrite node_at_level. apply Nat.eqb_refl.
    + rewrite (filter_none _ (lv (S L))), app_nil_r.
      * destruct (Nat.leb_spec l L); destruct (Nat.leb_spec l (S L)); try reflexivity; lia.
      * intros a Ha. apply in_level_nodes in Ha as (j & Hj & ->). rewrite node_at_level. apply Nat.eqb_neq. lia.
Qed.
Lemma level_nth l j : (j < 2 ^ l)%nat -> nth_error (lv l) j = Some (nd l j).
Proof.
  intros H. unfold level_nodes. rewrite nth_error_map. rewrite (nth_error_nth' _ 0%nat) by now rewrite seq_length.
  simpl. now rewrite nth_seq.
Qed.
Lemma tree_nth L l j : (l <= L)%nat -> (j < 2 ^ l)%nat -> nth_error (tr L) (2 ^ l - 1 + j) = Some (nd l j).
Proof.
  induction L as [|L IH]; intros Hl Hj.
  - replace l with 0%nat in * by lia. simpl in Hj. replace j with 0%nat by lia. reflexivity.
  - simpl tree_to. destruct (Nat.eq_dec l (S L)) as [->|NE].
    + rewrite nth_error_app2; rewrite tree_to_length; [|lia].
      replace (2 ^ S L - 1 + j - (2 ^ S L - 1))%nat with j by lia. now apply level_nth.
    + rewrite nth_error_app1; [apply IH; lia|]. rewrite tree_to_length.
      assert (2 ^ S l <= 2 ^ S L)%nat by (apply Nat.pow_le_mono_r; lia). simpl in *. lia.
Qed.
Lemma node_data l j : (j < 2 ^ l)%nat -> n_data (nd l j) = region X cs (path l j).
Proof.
  destruct l; intros H; [|reflexivity]. simpl in H. replace j with 0%nat by lia. cbn. symmetry. apply region_nil.
Qed.
Lemma tree_root L : get_root (tr L) = Ok (nd 0 0).
Proof.
  unfold get_root. replace (find _ (tr L)) with (Some (nd 0 0)); [reflexivity|].
  induction L as [|L IH]; [reflexivity|]. simpl tree_to. symmetry.
  assert (A : forall (p : node -> bool) l1 l2 n, Some n = find p l1 -> find p (l1 ++ l2) = Some n).
  { intros p l1 l2 n. induction l1 as [|a l1 IH1]; simpl; [discriminate|]. destruct (p a); [now intros <-|auto]. }
  now apply A.
Qed.
Lemma node_name_inj l j l' j' : (j < 2 ^ l)%nat -> (j' < 2 ^ l')%nat -> n_name (nd l j) = n_name (nd l' j') -> l = l' /\ j = j'.
Proof.
  intros H H' E. pose proof (node_name_in g fmt scale h0 ss l j H) as I1. pose proof (node_name_in g fmt scale h0 ss l' j' H') as I2.
  apply name_len_eq in I1. apply name_len_eq in I2.
  assert (l = l').
  { destruct (Nat.lt_trichotomy l l') as [A|[A|A]]; [|assumption|]; apply (name_len_lt g fmt scale ss) in A; rewrite E in I1; lia. }
  subst l'. split; [reflexivity|]. rewrite !node_at_name in E by assumption.
  pose proof (level_names_NoDup g fmt scale h0 ss l) as ND. rewrite (NoDup_nth _ ""%string) in ND.
  apply ND; rewrite ?level_names_length; assumption.
Qed.
Lemma children_of L l j : (l <= L)%nat -> (j < 2 ^ l)%nat ->
  get_children (tr L) (n_name (nd l j)) = if Nat.ltb l L then [nd (S l) (2 * j); nd (S l) (2 * j + 1)] else [].
Proof.
  intros Hl Hj. unfold get_children. set (p := fun n : node => _).
  assert (P0 : p (nd 0 0) = false) by reflexivity.
  assert (PS : forall m k, (S m <= L)%nat -> (k < 2 ^ S m)%nat -> p (nd (S m) k) = (Nat.eqb m l && Nat.eqb (k / 2) j)%bool).
  { intros m k Hm Hk. unfold p. change (n_parent (nd (S m) k)) with (Some (2 ^ m - 1 + k / 2)%nat). cbv iota beta.
    pose proof (half_lt k m Hk) as Hh. rewrite (tree_nth L m (k / 2)) by (assumption || lia).
    destruct (String.eqb_spec (n_name (nd m (k / 2))) (n_name (nd l j))) as [E|NE].
    - apply node_name_inj in E as [-> ->]; [|assumption..]. now rewrite !Nat.eqb_refl.
    - destruct (Nat.eqb_spec m l) as [->|]; [|reflexivity]. destruct (Nat.eqb_spec (k / 2) j) as [E|]; [|reflexivity]. subst j. congruence. }
  assert (G : forall M, (M <= L)%nat -> filter p (tr M) = if Nat.ltb l M then [nd (S l) (2 * j); nd (S l) (2 * j + 1)] else []).
  { induction M as [|M IHM]; intros HM.
    - change (tr 0) with [nd 0 0]. cbn [filter]. rewrite P0. reflexivity.
    - simpl tree_to. rewrite filter_app, IHM by lia. unfold level_nodes. rewrite filter_map_.
      destruct (Nat.eq_dec M l) as [->|NE].
      + destruct (Nat.ltb_spec l l); [lia|]. destruct (Nat.ltb_spec l (S l)); [|lia].
        rewrite (filter_ext_in' _ (fun k => Nat.eqb (k / 2) j)); [|intros k Hk; apply in_seq in Hk; rewrite PS by lia; now rewrite Nat.eqb_refl].
        change (2 ^ S l)%nat with (2 * 2 ^ l)%nat. rewrite filter_half by assumption. reflexivity.
      + rewrite filter_none. 2:{ intros k Hk. apply in_seq in Hk. rewrite PS by lia. destruct (Nat.eqb_spec M l); [lia|reflexivity]. }
        rewrite app_nil_r. destruct (Nat.ltb_spec l M); destruct (Nat.ltb_spec l (S M)); try reflexivity; lia. }
  now apply G.
Qed.
Lemma node_weight l j : (j < 2 ^ l)%nat -> X <> [] -> n_weight (nd l j) = qn (length (n_data (nd l j))) / qn (length X).
Proof.
  destruct l; intros H NE; [|reflexivity]. cbn.
  assert (qn (length X) <> 0) by (apply qn_neq0; destruct X; [congruence|simpl; lia]). symmetry. unfold Qcdiv. now apply Qcmult_inv_r.
Qed.
End Nodes.

(** * The trees of a completed search *)
(** Every feature has a name, and a scale when scales are given. *)
Definition named (g : regions) (scale : option (list (Qc * Qc))) : Prop :=
  (g_feature g < length (g_names g))%nat /\ (dim (g_data g) <= length (g_names g))%nat /\
  match scale with None => True | Some sc => (dim (g_data g) <= length sc)%nat end.

Lemma firstn_map_cond ss m : map cond_of (firstn m ss) = firstn m (map cond_of ss).
Proof. symmetry. apply firstn_map. Qed.
Lemma used_prefix g r ss important (only : bool) : important = [] \/ important = choose_important_splits g (Some (r, ss)) ->
  exists m, (if only then important else ss) = firstn m ss /\ (m <= length ss)%nat.
Proof.
  intros [-> | ->]; destruct only.
  - exists 0%nat. split; [reflexivity|lia].
  - exists (length ss). split; [symmetry; apply firstn_all|lia].
  - apply choose_is_prefix.
  - exists (length ss). split; [symmetry; apply firstn_all|lia].
Qed.

Section Search.
Context (g : regions) (fmt : Qc -> string) (scale : option (list (Qc * Qc))) (r : root) (ss : list split).
Hypothesis W : wf_regions g.
Hypothesis NM : named g scale.
Hypothesis SR : search_all_splits g = Ok (Some (r, ss)).
Notation X := (rows (g_data g)).

Lemma search_nonempty : X <> [].
Proof.
  destruct (search_inv g r ss W SR) as (_ & _ & NE & _ & _ & HL & _). destruct ss as [|s ss']; [congruence|].
  pose proof (lo_candidate _ _ _ _ _ (HL 0%nat ltac:(simpl; lia) s)) as C. intros E. rewrite E in C.
  simpl in C. destruct (s_type s); [exact C|]. destruct C as (lo & hi & i & [C _] & _). exact C.
Qed.
Lemma sp_prefix m l : (l < m)%nat -> (l < length ss)%nat -> sp (firstn m ss) l = nth l ss d0.
Proof. intros H H'. unfold sp. rewrite <- (firstn_skipn m ss) at 2. rewrite app_nth1; [reflexivity|]. rewrite firstn_length. lia. Qed.
Lemma good m l : (l < length (firstn m ss))%nat -> good_level g scale (firstn m ss) l.
Proof.
  rewrite firstn_length. intros H. destruct (search_inv g r ss W SR) as (_ & _ & _ & _ & _ & HL & _).
  destruct (HL l ltac:(lia) d0) as [_ L2 L3 _ _ _ L7 _ _]. unfold good_level. rewrite sp_prefix by lia.
  rewrite (heterogeneities_length _ _ _ _ _ _ L2), paths_length. destruct NM as (_ & N2 & N3).
  repeat split; [|lia|destruct scale; [lia|trivial]]. rewrite L3. unfold sizes. rewrite map_length, paths_length. reflexivity.
Qed.
Lemma search_tree important (only : bool) : (important = [] \/ important = choose_important_splits g (Some (r, ss))) ->
  let use := if only then important else ss in
  splits_to_tree g fmt (Some (r, ss)) important only scale = Ok (Some (tree_to g fmt scale (r_heter r) use (length use))).
Proof.
  intros H use. destruct (search_inv g r ss W SR) as (H1 & _). apply splits_to_tree_ok; [assumption..|apply NM|].
  fold use. destruct (used_prefix g r ss important only H) as (m & E & _). fold use in E. rewrite E. intros k. apply good.
Qed.

(** The instances and heterogeneity of a node, for a tree that uses the first [m] splits. *)
Section Prefix.
Context (m : nat).
Notation use := (firstn m ss).
Notation nd := (node_at g fmt scale (r_heter r) use).
Notation cs := (map cond_of use).

Lemma region_prefix l p : (l <= length use)%nat -> length p = l -> region X (map cond_of ss) p = region X cs p.
Proof.
  intros H HP. rewrite firstn_map_cond, region_firstn; [reflexivity|]. rewrite firstn_length in H. lia.
Qed.
Lemma region_effects_prefix e l p : (l <= length use)%nat -> length p = l -> region_effects X e (map cond_of ss) p = region_effects X e cs p.
Proof.
  intros H HP. rewrite firstn_map_cond, region_effects_firstn; [reflexivity|]. rewrite firstn_length in H. lia.
Qed.
Lemma path_in l j : (j < 2 ^ l)%nat -> In (path l j) (paths l).
Proof. intros H. unfold path. apply nth_In. now rewrite paths_length. Qed.
Lemma node_heter l j : (l <= length use)%nat -> (j < 2 ^ l)%nat ->
  g_heter g (n_data (nd l j)) (option_map (fun e => region_effects X e cs (path l j)) (g_effect g)) = Ok (n_heter (nd l j)).
Proof.
  intros Hl Hj. destruct (search_inv g r ss W SR) as (_ & H0 & _ & _ & _ & HL & _). destruct l as [|l].
  - simpl in Hj. replace j with 0%nat by lia. cbn [node_at n_data n_heter]. rewrite <- H0. f_equal.
    destruct W as [_ W2]. destruct (g_effect g) as [e|]; [|reflexivity]. cbn [option_map]. f_equal. apply region_effects_nil. exact W2.
  - pose proof Hl as Hl'. rewrite firstn_length in Hl'. pose proof (lo_heter _ _ _ _ _ (HL l ltac:(lia) d0)) as HH.
    unfold heterogeneities in HH. apply (Forall2_nth _ _ _ [] 0) in HH as [_ HH].
    assert (Hj' : (j < length (paths (S l)))%nat) by now rewrite paths_length. specialize (HH j Hj').
    cbn [node_at n_data n_heter]. rewrite sp_prefix by lia. change (nth j (paths (S l)) []) with (path (S l) j) in HH.
    pose proof (paths_len (S l) _ (path_in (S l) j Hj)) as LP.
    rewrite (region_prefix (S l)) in HH by assumption. rewrite <- HH. change (PartTree.cs use) with cs. f_equal.
    destruct (g_effect g) as [e|]; [|reflexivity]. cbn [option_map]. now rewrite (region_effects_prefix e (S l)).
Qed.
Lemma node_nof l j : (l <= length use)%nat -> (j < 2 ^ l)%nat -> n_nof (nd l j) = length (n_data (nd l j)).
Proof.
  intros Hl Hj. destruct (search_inv g r ss W SR) as (_ & _ & _ & _ & _ & HL & _). destruct l as [|l]; [reflexivity|].
  pose proof Hl as Hl'. rewrite firstn_length in Hl'. pose proof (lo_nof _ _ _ _ _ (HL l ltac:(lia) d0)) as HH.
  cbn [node_at n_data n_nof]. rewrite sp_prefix by lia. rewrite HH. unfold sizes.
  assert (Hj' : (j < length (paths (S l)))%nat) by now rewrite paths_length.
  rewrite nth_map_in with (d := []) by assumption. change (nth j (paths (S l)) []) with (path (S l) j).
  rewrite (region_prefix (S l)); [reflexivity|assumption|]. apply (paths_len (S l)), path_in, Hj.
Qed.
Lemma level_data l : map n_data (level_nodes g fmt scale (r_heter r) use l) = map (region X cs) (paths l).
Proof.
  unfold level_nodes. rewrite map_map. rewrite (map_ext_in _ (fun j => region X cs (path l j))).
  2:{ intros j Hj. apply in_seq in Hj. apply node_data. lia. }
  unfold path. rewrite <- (map_map (fun j => nth j (paths l) []) (region X cs)). f_equal. rewrite <- paths_length. apply map_nth_seq.
Qed.
Lemma level_perm l : (l <= length use)%nat -> Permutation (concat (map n_data (level_nodes g fmt scale (r_heter r) use l))) X.
Proof. intros H. rewrite level_data. apply region_partition. now rewrite map_length. Qed.
Lemma level_weight l : (l <= length use)%nat -> sumq (map n_weight (level_nodes g fmt scale (r_heter r) use l)) = 1.
Proof.
  intros H. pose proof search_nonempty as NE. assert (N0 : qn (length X) <> 0) by (apply qn_neq0; destruct X; [congruence|simpl; lia]).
  rewrite (map_ext_in _ (fun n => qn (length (n_data n)) * (/ qn (length X)))).
  2:{ intros n Hn. apply in_level_nodes in Hn as (j & Hj & ->). apply node_weight; assumption. }
  rewrite <- (map_map (fun n => qn (length (n_data n))) (fun a => a * / qn (length X))).
  rewrite <- (map_map (fun n => length (n_data n)) qn).
  assert (E : forall l c, sumq (map (fun a => a * c) l) = sumq l * c).
  { intros l0 c. induction l0 as [|a l0 IH]; simpl; [ring|]. rewrite IH. ring. }
  rewrite E, <- qn_sumn. rewrite <- (map_map n_data (fun d => length d)).
  set (q := sumn _). assert (Eq : q = length X). { unfold q. etransitivity; [apply (sumn_lengths (A := list Qc))|]. apply Permutation_length, level_perm, H. }
  rewrite Eq.
  now apply Qcmult_inv_r.
Qed.
End Prefix.
End Search.

Lemma np_min_ok l : l <> [] -> exists v, np_min l = Ok v.
Proof. destruct l; [congruence|]. intros _. eexists. reflexivity. Qed.
Lemma np_max_ok l : l <> [] -> exists v, np_max l = Ok v.
Proof. destruct l; [congruence|]. intros _. eexists. reflexivity. Qed.
Lemma nth_error_Some_nth {A} (l : list A) i a d : nth_error l i = Some a -> (i < length l)%nat /\ nth i l d = a.
Proof. intros H. split; [apply nth_error_Some; congruence|]. now apply nth_error_nth. Qed.
Lemma skipn_nth_cons {A} (l : list A) i d : (i < length l)%nat -> skipn i l = nth i l d :: skipn (S i) l.
Proof. revert i. induction l as [|a l IH]; intros [|i] H; simpl in *; try lia; [reflexivity|]. apply IH. lia. Qed.
