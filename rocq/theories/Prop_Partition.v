(** Properties C36-C47 and C58-C60: partitioning (partitioning.py).
    [g] is a Regions object (feature, heterogeneity function, data, effects, feature types/names, conditioning features,
    options); [search_all_splits g = Ok (Some (r, ss))] says that the search returned the root entry [r] and the splits
    [ss]; [cond_of s] is the condition of a split: its feature, its type and its position. The subregions [region], the
    weighted heterogeneities [weighted], the drops [drops] and the candidates [candidate] are defined in PartSpec.v. *)
From Verif Require Import Base Numpy Spec NumpyFacts Utils UtilsProofs PartSpec Partition PartProofs PartSearch PartTree PartFacts PartNodes PartTransform.
Open Scope Qc_scope.
Open Scope list_scope.

(** The examples: eight instances with features 0, 1, 2; the heterogeneity is the variance of 10 x1 + x2; 
    the effects (if any) are two columns of other numbers. *)
Definition ex_X : Mat := [qs [0; 0; 0]; qs [1; 0; 0]; qs [2; 0; 1]; qs [3; 0; 1]; qs [4; 1; 0]; qs [5; 1; 0]; qs [6; 1; 1]; qs [7; 1; 1]].
Definition ex_E : Mat := map (fun r => [r@0 + qz 100]) ex_X.
Definition ex_h : heter_func := fun x _ => match x with [] | [_] => Ok BIG_M | _ => Ok (variance (map (fun r => qz 10 * r@1 + r@2) x)) end.
Definition ex_names : list string := ["a"; "b"; "c"]%string.
Definition ex_g : regions := mkRegions 0 ex_h (mkData Float64 3 ex_X) (Some ex_E) [Cont; Cont; Cont] ex_names 3 [1; 2]%nat [Cont; Cont] 2 2 2
                                       (Q2Qc (1 # 10)) 0 false.
Definition ex_fmt (q : Qc) : string := "p"%string.
Lemma ex_wf : wf_regions ex_g. Proof. split; reflexivity. Qed.
Lemma ex_named : named ex_g None. Proof. repeat split; simpl; lia. Qed.
Definition show_split (s : split) : (nat * Q * list nat * list Q * Q) :=
  (s_feature s, this (s_position s), s_nof s, show (s_heter s), this (s_wheter s)).
Lemma ex_found : exists r ss, search_all_splits ex_g = Ok (Some (r, ss)) /\
  map show_split ss = [(1%nat, (1#4)%Q, [4; 4]%nat, [(1#4)%Q; (1#4)%Q], (1#4)%Q); (2%nat, (1#4)%Q, [2; 2; 2; 2]%nat, [0; 0; 0; 0]%Q, 0%Q)] /\
  length (choose_important_splits ex_g (Some (r, ss))) = 2%nat.
Proof. eexists _, _. split; [vm_compute; reflexivity|]. split; vm_compute; reflexivity. Qed.

(** * C36  A split partitions the instances *)
Definition yes (f : nat) (t : ftype) (p : Qc) (r : list Qc) : bool := satisfies (f, t, p) r.
Definition no (f : nat) (t : ftype) (p : Qc) (r : list Qc) : bool := negb (satisfies (f, t, p) r).
(** [filter] keeps the relative order; the two sides are complementary filters. *)
Theorem C36_data : forall x f p t,
  split_dataset x None f p t = Ok (filter (yes f t p) x, filter (no f t p) x) /\
  Permutation x (filter (yes f t p) x ++ filter (no f t p) x).
Proof.
  intros. split; [|apply partition_perm]. rewrite split_dataset_data. f_equal.
  rewrite (filter_ext_in' _ (yes f t p)), (filter_ext_in' (fun r => Bool.eqb _ false) (no f t p)); [reflexivity|intros; apply eqb_false_negb|intros; apply eqb_true_id].
Qed.
Print Assumptions C36_data.
(** With effects: the effect rows of exactly the instances of each side, in the same order. *)
Theorem C36_effects : forall x j f p t, length j = length x ->
  exists j1 j2, split_dataset x (Some j) f p t = Ok (j1, j2) /\
    length j1 = length (filter (yes f t p) x) /\ length j2 = length (filter (no f t p) x) /\
    combine (filter (yes f t p) x) j1 = filter (fun q => yes f t p (fst q)) (combine x j) /\
    combine (filter (no f t p) x) j2 = filter (fun q => no f t p (fst q)) (combine x j).
Proof.
  intros x j f p t L. rewrite split_dataset_eff by assumption. eexists _, _. split; [reflexivity|].
  rewrite (filter_ext_in' (fun q => Bool.eqb (satisfies (f, t, p) (fst q)) true) (fun q => yes f t p (fst q))) by (intros; apply eqb_true_id).
  rewrite (filter_ext_in' (fun q => Bool.eqb (satisfies (f, t, p) (fst q)) false) (fun q => no f t p (fst q))) by (intros; apply eqb_false_negb).
  rewrite !map_length.
  assert (A : forall q, length (filter (fun a : list Qc * list Qc => q (fst a)) (combine x j)) = length (filter q x)).
  { intros q. rewrite <- (filter_combine q x j L), map_length. reflexivity. }
  assert (B : forall q, combine (filter q x) (map snd (filter (fun a : list Qc * list Qc => q (fst a)) (combine x j))) = filter (fun a => q (fst a)) (combine x j)).
  { intros q. rewrite <- (filter_combine q x j L). generalize (filter (fun a => q (fst a)) (combine x j)).
    intros l. induction l as [|[a b] l IH]; simpl; [reflexivity|]. now rewrite IH. }
  repeat split; try apply A; apply B.
Qed.
Print Assumptions C36_effects.
(** Effects that are not aligned with the data are rejected. *)
Theorem C36_misaligned : forall x j f p t, length j <> length x -> split_dataset x (Some j) f p t = Raise IndexError.
Proof.
  intros x j f p t L. unfold split_dataset, mask_rows, col. rewrite !map_length.
  destruct (Nat.eqb_spec (length x) (length j)); [congruence|reflexivity].
Qed.
Print Assumptions C36_misaligned.
Example C36_instance : rmap (fun q => (map show (fst q), map show (snd q))) (split_dataset (rows (g_data ex_g)) (Some ex_E) 1 (Q2Qc (1 # 4)) Cont)
  = Ok ([[100]; [101]; [102]; [103]]%Q, [[104]; [105]; [106]; [107]]%Q).
Proof. vm_compute. reflexivity. Qed.

(** * C37  Candidate split positions *)
Lemma centre_between lo hi n i : lo < hi -> (i < n)%nat -> lo < centre lo hi n i < hi.
Proof.
  intros H Hi. unfold centre. assert (Hn : 0 < qn n) by (apply qn_pos; lia).
  assert (S : 0 < (hi - lo) / qn n) by (apply Qcdiv_lt_0; [qlra|assumption]).
  assert (E : qn n * ((hi - lo) / qn n) = hi - lo) by (field; intros E; rewrite E in Hn; qlra).
  set (s := (hi - lo) / qn n) in *. assert (I0 : 0 <= qn i) by apply qn_nonneg.
  assert (I1 : qn i + 1 <= qn n) by (rewrite <- qn_S; apply qn_le; lia). split; qnra.
Qed.
Theorem C37_numerical : forall X f n, (f < dim X)%nat -> rows X <> [] ->
  exists lo hi, is_min (values (rows X) f) lo /\ is_max (values (rows X) f) hi /\
    find_positions_cont X f n = Ok (map (centre lo hi n) (seq 0 n)) /\
    (lo < hi -> forall i, (i < n)%nat -> lo < centre lo hi n i < hi) /\
    (forall i, centre lo hi n (S i) - centre lo hi n i = (hi - lo) / qn n) /\
    ((1 <= n)%nat -> centre lo hi n 0 - lo = hi - centre lo hi n (n - 1)).
Proof.
  intros X f n Hf NE.
  destruct (np_min_ok (values (rows X) f)) as [lo Elo]; [now apply values_nonempty|].
  destruct (np_max_ok (values (rows X) f)) as [hi Ehi]; [now apply values_nonempty|].
  exists lo, hi. split; [now apply np_min_is|]. split; [now apply np_max_is|]. split; [|split; [|split]].
  - unfold find_positions_cont. unfold getcol. destruct (Nat.ltb_spec f (dim X)); [|lia]. unfold bind at 1. change (col (rows X) f) with (values (rows X) f).
    rewrite Ehi. unfold bind at 1. rewrite Elo. unfold bind at 1. reflexivity.
  - intros H i Hi. now apply centre_between.
  - intros i. unfold centre. rewrite qn_S. ring.
  - intros Hn. unfold centre. rewrite qn_0, qn_sub, qn_1 by assumption.
    assert (Hq : qn n <> 0) by (apply qn_neq0; lia). assert (Q2Qc (1 # 2) + Q2Qc (1 # 2) = 1) as E by (apply Qc_is_canon; reflexivity).
    set (s := (hi - lo) / qn n). assert (ES : qn n * s = hi - lo) by (unfold s; field; assumption). qnra.
Qed.
Print Assumptions C37_numerical.
Theorem C37_categorical : forall X f, (f < dim X)%nat ->
  exists l, find_positions_cat X f = Ok l /\ increasing l /\ forall v, In v l <-> In v (values (rows X) f).
Proof.
  intros X f Hf. unfold find_positions_cat, getcol. destruct (Nat.ltb_spec f (dim X)); [|lia]. eexists. split; [reflexivity|].
  split; [apply unique_increasing|]. intros v. apply unique_in.
Qed.
Print Assumptions C37_categorical.
Example C37_instance :
  rmap show (find_positions_cont (g_data ex_g) 0 7) = Ok [1#2; 3#2; 5#2; 7#2; 9#2; 11#2; 13#2]%Q /\
  rmap show (find_positions_cat (g_data ex_g) 1) = Ok [0; 1]%Q.
Proof. split; vm_compute; reflexivity. Qed.

(** * C38  The chosen split is the best candidate *)
(** Level [l] of a search: the conditions of the previous levels [cs], the heterogeneities [before] of the 2^l subregions
    they define. The split [s] of the level reports exactly the sizes, the heterogeneities, their weighted sum and the
    weighted drop of the 2^(l+1) subregions obtained by adding its own condition, it is a candidate of a conditioning
    feature, and no candidate of any conditioning feature has a larger weighted drop. *)
Theorem C38_best : forall g r ss l s, wf_regions g -> search_all_splits g = Ok (Some (r, ss)) -> nth_error ss l = Some s ->
  let X := rows (g_data g) in let E := g_effect g in let h := g_heter g in
  let cs := map cond_of (firstn l ss) in
  exists before,
    heterogeneities h X E cs (paths l) before /\
    (let now := cs ++ [(s_feature s, s_type s, s_position s)] in
     let ns := map (fun p => length (region X now p)) (paths (S l)) in
     s_nof s = ns /\ heterogeneities h X E now (paths (S l)) (s_heter s) /\
     s_wheter s = weighted ns (s_heter s) /\ s_drop s = weighted ns (drops before (s_heter s))) /\
    In (s_feature s, s_type s) (combine (g_foc g) (g_foc_types g)) /\
    candidate X (g_nof_splits g) (s_feature s) (s_type s) (s_position s) /\
    forall f t p, In (f, t) (combine (g_foc g) (g_foc_types g)) -> candidate X (g_nof_splits g) f t p ->
      let other := cs ++ [(f, t, p)] in
      exists hs, heterogeneities h X E other (paths (S l)) hs /\
        weighted (map (fun p => length (region X other p)) (paths (S l))) (drops before hs) <= s_drop s.
Proof.
  intros g r ss l s W SR HN X E h cs. destruct (search_inv g r ss W SR) as (_ & H0 & _ & _ & _ & HL & _).
  pose proof HN as HN'. apply nth_error_Some_nth with (d := s) in HN' as [Hl Hs].
  pose proof (HL l Hl s) as LO. rewrite Hs in LO. destruct LO as [_ L2 L3 L4 L5 L6 _ L8 L9].
  assert (FS : map cond_of (firstn (S l) ss) = cs ++ [cond_of s]).
  { unfold cs. rewrite <- (firstn_skipn l ss) at 1. rewrite firstn_app, firstn_firstn, firstn_length.
    replace (Nat.min (S l) l) with l by lia. replace (S l - Nat.min l (length ss))%nat with 1%nat by lia.
    rewrite map_app. f_equal. rewrite (skipn_nth_cons _ _ s) by assumption. simpl. now rewrite Hs. }
  assert (RG : forall p, In p (paths (S l)) -> region X (map cond_of ss) p = region X (cs ++ [cond_of s]) p).
  { intros p Hp. rewrite <- FS, firstn_map_cond, region_firstn; [reflexivity|]. apply paths_len in Hp. lia. }
  assert (RGE : forall e p, In p (paths (S l)) -> region_effects X e (map cond_of ss) p = region_effects X e (cs ++ [cond_of s]) p).
  { intros e p Hp. rewrite <- FS, firstn_map_cond, region_effects_firstn; [reflexivity|]. apply paths_len in Hp. lia. }
  assert (SZ : sizes X (map cond_of ss) (S l) = map (fun p => length (region X (cs ++ [cond_of s]) p)) (paths (S l))).
  { unfold sizes. apply map_ext_in. intros p Hp. now rewrite RG. }
  exists (match l with O => [r_heter r] | S l' => s_heter (nth l' ss s) end). split; [|split; [|split; [|split]]].
  - destruct l as [|l'].
    + unfold heterogeneities. simpl. constructor; [|constructor]. rewrite region_nil. fold X in H0. destruct W as [_ W2].
      unfold h, E. rewrite <- H0. f_equal. destruct (g_effect g) as [e|]; [|reflexivity]. simpl. f_equal. apply region_effects_nil. exact W2.
    + destruct (HL l' ltac:(lia) s) as [_ K2 _ _ _ _ _ _ _]. eapply Forall2_impl_in; [|exact K2]. intros p v Hp Hv. cbv beta in *.
      apply paths_len in Hp. unfold cs. rewrite firstn_map_cond, region_firstn by lia. fold X in Hv. unfold h, E. rewrite <- Hv.
      destruct (g_effect g) as [e|]; [|reflexivity]. cbn [option_map]. now rewrite region_effects_firstn by lia.
  - cbv zeta. split; [rewrite L3; exact SZ|]. split; [|split; [rewrite L4, L3; exact (f_equal (fun q => weighted q _) SZ)|rewrite L5, L3; exact (f_equal (fun q => weighted q _) SZ)]].
    change (s_feature s, s_type s, s_position s) with (cond_of s). eapply Forall2_impl_in; [|exact L2]. intros p v Hp Hv. cbv beta in *. rewrite <- RG by assumption. fold X in Hv. unfold h, E. rewrite <- Hv.
    destruct (g_effect g) as [e|]; [|reflexivity]. cbn [option_map]. exact (f_equal (fun q => g_heter g _ (Some q)) (eq_sym (RGE e p Hp))).
  - exact (nth_error_In _ _ L6).
  - assumption.
  - intros f t p HI HC other. destruct (L9 f t p HI HC) as (hs & K1 & K2 & _). exists hs. split; assumption.
Qed.
Print Assumptions C38_best.
Example C38_instance : wf_regions ex_g /\ exists r ss s, search_all_splits ex_g = Ok (Some (r, ss)) /\ nth_error ss 1 = Some s /\ this (s_drop s) = (1 # 4)%Q.
Proof. split; [apply ex_wf|]. eexists _, _, _. split; [vm_compute; reflexivity|]. split; vm_compute; reflexivity. Qed.

(** * C39  Important splits are the longest prefix of sufficiently large drops *)
(** The heterogeneities of the levels: of the root, then the weighted one of every split. *)
Definition levels (r : root) (ss : list split) : list Qc := r_heter r :: map s_wheter ss.
(** The first [m] levels all reduce the heterogeneity by more than the fraction [t]. *)
Definition all_drop (t : Qc) (h : list Qc) (m : nat) : Prop := forall k, (k < m)%nat -> t * h@k < h@k - h@(S k).
Theorem C39_longest_prefix : forall g r ss, (forall v, In v (levels r ss) -> 0 <= v) ->
  r_heter r <> BIG_M -> g_small_enough g <= r_heter r ->
  exists m, choose_important_splits g (Some (r, ss)) = firstn m ss /\ (m <= length ss)%nat /\
    all_drop (g_drop_thres g) (levels r ss) m /\
    forall m', (m' <= length ss)%nat -> all_drop (g_drop_thres g) (levels r ss) m' -> (m' <= m)%nat.
Proof.
  intros g r ss HP NB HS. destruct (choose_prefix g r ss NB HS) as (m & E & Hm & H1 & H2). exists m.
  assert (P : forall k, (k <= length ss)%nat -> 0 <= (levels r ss)@k).
  { intros k Hk. apply HP, nth_In. unfold levels. simpl. rewrite map_length. lia. }
  split; [assumption|]. split; [assumption|]. split.
  - intros k Hk. apply drop_exceeds_iff; [apply P; lia|apply P; lia|]. now apply H1.
  - intros m' Hm' HA. destruct (Nat.le_gt_cases m' m) as [|Hlt]; [assumption|]. exfalso.
    specialize (HA m Hlt). apply drop_exceeds_iff in HA; [|apply P; lia|apply P; lia].
    change (level_heters r ss) with (levels r ss) in H2. rewrite H2 in HA by lia. discriminate.
Qed.
Print Assumptions C39_longest_prefix.
Theorem C39_nothing : forall g r ss, r_heter r = BIG_M \/ r_heter r < g_small_enough g -> choose_important_splits g (Some (r, ss)) = [].
Proof.
  intros g r ss H. unfold choose_important_splits. destruct (r_heter r =? BIG_M) eqn:E1; [reflexivity|].
  destruct H as [H|H]; [exfalso; apply Qceqb_neq in E1; contradiction|]. apply Qcltb_lt in H. now rewrite H.
Qed.
Print Assumptions C39_nothing.
(** After a search with a non-negative heterogeneity function the hypothesis of C39_longest_prefix holds. *)
Theorem C39_search : forall g r ss, wf_regions g -> (forall x e v, g_heter g x e = Ok v -> 0 <= v) ->
  search_all_splits g = Ok (Some (r, ss)) -> forall v, In v (levels r ss) -> 0 <= v.
Proof.
  intros g r ss W HP SR. destruct (search_inv g r ss W SR) as (_ & H0 & _ & _ & _ & HL & _).
  intros v [<-|Hv]; [now apply HP in H0|]. apply in_map_iff in Hv as (s & <- & Hs). apply (In_nth _ _ s) in Hs as (l & Hl & Es).
  pose proof (HL l Hl s) as LO. rewrite Es in LO. destruct LO as [_ L2 _ L4 _ _ _ _ _]. rewrite L4. apply weighted_nonneg.
  intros w Hw. apply (In_nth _ _ 0) in Hw as (k & Hk & <-). pose proof (heterogeneities_length _ _ _ _ _ _ L2) as LL.
  apply (Forall2_nth _ _ _ [] 0) in L2 as [_ L2]. eapply HP. apply (L2 k). lia.
Qed.
Print Assumptions C39_search.
Example C39_instance : exists r ss, search_all_splits ex_g = Ok (Some (r, ss)) /\ r_heter r <> BIG_M /\ g_small_enough ex_g <= r_heter r /\
  show (levels r ss) = [101 # 4; 1 # 4; 0]%Q /\ map s_feature (choose_important_splits ex_g (Some (r, ss))) = [1; 2]%nat.
Proof.
  eexists _, _. split; [vm_compute; reflexivity|]. split; [intros E; apply (f_equal this) in E; vm_compute in E; discriminate|].
  split; [vm_compute; discriminate|]. split; vm_compute; reflexivity.
Qed.

(** * C40  The partition tree is a complete binary partition of the data *)
(** [important] is what choose_important_splits left in the object ([] before it was called); the full tree uses all the
    splits, the pruned one ([only = true]) the important ones. *)
Definition chosen (g : regions) (r : root) (ss important : list split) : Prop :=
  important = [] \/ important = choose_important_splits g (Some (r, ss)).
Theorem C40_levels : forall g fmt scale r ss important (only : bool), wf_regions g -> named g scale ->
  search_all_splits g = Ok (Some (r, ss)) -> chosen g r ss important ->
  let used := if only then important else ss in
  exists t, splits_to_tree g fmt (Some (r, ss)) important only scale = Ok (Some t) /\
    (forall l, (l <= length used)%nat ->
       length (get_level_nodes t l) = (2 ^ l)%nat /\
       map n_data (get_level_nodes t l) = map (region (rows (g_data g)) (map cond_of used)) (paths l) /\
       Permutation (concat (map n_data (get_level_nodes t l))) (rows (g_data g)) /\
       sumq (map n_weight (get_level_nodes t l)) = 1) /\
    (forall l, (length used < l)%nat -> get_level_nodes t l = []).
Proof.
  intros g fmt scale r ss important only W NM SR CH used. eexists. split; [now apply search_tree|].
  destruct (used_prefix g r ss important only CH) as (m & E & _). fold used in E |- *. rewrite E. split.
  - intros l Hl. rewrite level_of_tree. destruct (Nat.leb_spec l (length (firstn m ss))) as [_|]; [|lia].
    rewrite level_nodes_length. split; [reflexivity|]. split; [|split].
    + apply level_data.
    + now apply level_perm.
    + now apply level_weight.
  - intros l Hl. rewrite level_of_tree. destruct (Nat.leb_spec l (length (firstn m ss))); [lia|reflexivity].
Qed.
Print Assumptions C40_levels.
(** Every node: its level, its size and weight, and its heterogeneity, which is the heterogeneity function of the node's
    instances and of the effects of these instances. *)
Theorem C40_nodes : forall g fmt scale r ss important (only : bool) t n, wf_regions g -> named g scale ->
  search_all_splits g = Ok (Some (r, ss)) -> chosen g r ss important ->
  splits_to_tree g fmt (Some (r, ss)) important only scale = Ok (Some t) -> In n t ->
  let used := if only then important else ss in
  (n_level n <= length used)%nat /\ n_nof n = length (n_data n) /\
  n_weight n = qn (length (n_data n)) / qn (length (rows (g_data g))) /\
  exists p, In p (paths (n_level n)) /\ n_data n = region (rows (g_data g)) (map cond_of used) p /\
    g_heter g (n_data n) (option_map (fun e => region_effects (rows (g_data g)) e (map cond_of used) p) (g_effect g)) = Ok (n_heter n).
Proof.
  intros g fmt scale r ss important only t n W NM SR CH HT HI used.
  rewrite (search_tree g fmt scale r ss W NM SR important only CH) in HT. injection HT as <-.
  destruct (used_prefix g r ss important only CH) as (m & E & _). fold used in E, HI |- *. rewrite E in *.
  apply in_tree_to in HI as (l & j & Hl & Hj & ->). rewrite node_at_level. split; [assumption|].
  split; [apply node_nof; assumption|]. split; [apply node_weight; [assumption|apply (search_nonempty g r ss W SR)]|].
  exists (path l j). split; [now apply path_in|]. split; [now apply node_data|]. apply node_heter; assumption.
Qed.
Print Assumptions C40_nodes.
(** A node above the last level has exactly two children, which divide its instances by the condition of the next split. *)
Theorem C40_children : forall g fmt scale r ss important (only : bool) t n, wf_regions g -> named g scale ->
  search_all_splits g = Ok (Some (r, ss)) -> chosen g r ss important ->
  splits_to_tree g fmt (Some (r, ss)) important only scale = Ok (Some t) -> In n t ->
  match nth_error (if only then important else ss) (n_level n) with
  | Some s => exists a b, get_children t (n_name n) = [a; b] /\ n_level a = S (n_level n) /\ n_level b = S (n_level n) /\
        n_data a = filter (satisfies (cond_of s)) (n_data n) /\
        n_data b = filter (fun x => negb (satisfies (cond_of s) x)) (n_data n)
  | None => get_children t (n_name n) = []
  end.
Proof.
  intros g fmt scale r ss important only t n W NM SR CH HT HI.
  rewrite (search_tree g fmt scale r ss W NM SR important only CH) in HT. injection HT as <-.
  set (used := if only then important else ss) in *. clearbody used.
  apply in_tree_to in HI as (l & j & Hl & Hj & ->). rewrite node_at_level.
  rewrite children_of by assumption. destruct (nth_error used l) as [s|] eqn:EN.
  - apply nth_error_Some_nth with (d := d0) in EN as [Hlt Es]. destruct (Nat.ltb_spec l (length used)); [|lia].
    eexists _, _. split; [reflexivity|]. rewrite !node_at_level. split; [reflexivity|]. split; [reflexivity|].
    assert (J0 : (2 * j < 2 ^ S l)%nat) by (simpl; lia). assert (J1 : (2 * j + 1 < 2 ^ S l)%nat) by (simpl; lia).
    rewrite !node_data by assumption.
    pose proof (region_child g fmt (r_heter r) used l (2 * j) Hlt J0) as R0. pose proof (region_child g fmt (r_heter r) used l (2 * j + 1) Hlt J1) as R1.
    assert (E0 : (2 * j / 2)%nat = j) by (rewrite Nat.mul_comm; apply Nat.div_mul; lia).
    assert (E1 : ((2 * j + 1) / 2)%nat = j) by (symmetry; apply (Nat.div_unique _ 2 j 1); lia).
    assert (V0 : Nat.even (2 * j) = true) by (rewrite Nat.even_mul; reflexivity).
    assert (V1 : Nat.even (2 * j + 1) = false) by (rewrite Nat.add_comm, Nat.even_add_mul_2; reflexivity).
    rewrite E0, V0 in R0. rewrite E1, V1 in R1. change (sp used l) with (nth l used d0) in R0, R1. rewrite Es in R0, R1.
    unfold PartTree.cs in R0, R1. rewrite R0, R1. split; apply filter_ext_in'; intros; [apply eqb_true_id|apply eqb_false_negb].
  - apply nth_error_None in EN. destruct (Nat.ltb_spec l (length used)); [lia|reflexivity].
Qed.
Print Assumptions C40_children.
Example C40_instance : wf_regions ex_g /\ named ex_g None /\ exists r ss t, search_all_splits ex_g = Ok (Some (r, ss)) /\
  splits_to_tree ex_g ex_fmt (Some (r, ss)) (choose_important_splits ex_g (Some (r, ss))) true None = Ok (Some t) /\
  map n_nof t = [8; 4; 4; 2; 2; 2; 2]%nat /\ map (fun n => show (map (fun x => x@0) (n_data n))) (get_level_nodes t 2) = [[0; 1]; [2; 3]; [4; 5]; [6; 7]]%Q.
Proof.
  split; [apply ex_wf|]. split; [apply ex_named|]. eexists _, _, _. split; [vm_compute; reflexivity|].
  split; [vm_compute; reflexivity|]. split; vm_compute; reflexivity.
Qed.

(** * C41  Tree nodes carry the effects of their own instances *)
(** [n] carries the effects of its instances: its data and effects are the region and the region's effect rows. *)
Definition own_effects (g : regions) (used : list split) (n : node) : Prop :=
  exists p, In p (paths (n_level n)) /\ n_data n = region (rows (g_data g)) (map cond_of used) p /\
    n_effect n = option_map (fun e => region_effects (rows (g_data g)) e (map cond_of used) p) (g_effect g).
(** False below level 1: line 437 passes the data of the level instead of its effects to the next level. *)
Theorem C41_refuted : exists g fmt r ss t n, wf_regions g /\ search_all_splits g = Ok (Some (r, ss)) /\
  splits_to_tree g fmt (Some (r, ss)) (choose_important_splits g (Some (r, ss))) true None = Ok (Some t) /\ In n t /\
  ~ own_effects g (choose_important_splits g (Some (r, ss))) n.
Proof.
  exists ex_g, ex_fmt. eexists _, _, _, _. split; [apply ex_wf|]. split; [vm_compute; reflexivity|]. split; [vm_compute; reflexivity|].
  split; [do 3 right; left; reflexivity|]. intros (p & Hp & HD & HE).
  simpl in Hp. destruct Hp as [<-|[<-|[<-|[<-|[]]]]]; apply (f_equal (option_map (map show))) in HE; vm_compute in HE; discriminate.
Qed.
Print Assumptions C41_refuted.
(** Levels 0 and 1 are right; at every deeper level the effects of a node are its *data*. *)
Theorem C41_partial : forall g fmt scale r ss important (only : bool) t n, wf_regions g -> named g scale ->
  search_all_splits g = Ok (Some (r, ss)) -> chosen g r ss important ->
  splits_to_tree g fmt (Some (r, ss)) important only scale = Ok (Some t) -> In n t ->
  ((n_level n <= 1)%nat -> own_effects g (if only then important else ss) n) /\
  ((2 <= n_level n)%nat -> n_effect n = option_map (fun _ => n_data n) (g_effect g)).
Proof.
  intros g fmt scale r ss important only t n W NM SR CH HT HI.
  rewrite (search_tree g fmt scale r ss W NM SR important only CH) in HT. injection HT as <-.
  set (used := if only then important else ss) in *. clearbody used.
  apply in_tree_to in HI as (l & j & Hl & Hj & ->). unfold own_effects. rewrite node_at_level. split; intros H.
  - exists (path l j). split; [apply path_in; assumption|]. split; [apply node_data; assumption|].
    destruct l as [|[|l]]; [|cbn [node_at n_effect]; unfold effect_at; destruct (g_effect g); reflexivity|lia].
    cbn [node_at n_effect]. simpl in Hj. replace j with 0%nat by lia. destruct W as [_ W2].
    destruct (g_effect g) as [e|]; [|reflexivity]. cbn [option_map]. f_equal. symmetry. apply region_effects_nil. exact W2.
  - rewrite node_data by assumption. destruct l as [|[|l]]; [lia|lia|]. cbn [node_at n_effect]. unfold effect_at. destruct (g_effect g); reflexivity.
Qed.
Print Assumptions C41_partial.
(** Without effects (PDP, ALE, ShapDP) the property holds at every level. *)
Theorem C41_no_effects_partial : forall g fmt scale r ss important (only : bool) t n, wf_regions g -> named g scale -> g_effect g = None ->
  search_all_splits g = Ok (Some (r, ss)) -> chosen g r ss important ->
  splits_to_tree g fmt (Some (r, ss)) important only scale = Ok (Some t) -> In n t -> own_effects g (if only then important else ss) n.
Proof.
  intros g fmt scale r ss important only t n W NM NE SR CH HT HI.
  rewrite (search_tree g fmt scale r ss W NM SR important only CH) in HT. injection HT as <-.
  set (used := if only then important else ss) in *. clearbody used.
  apply in_tree_to in HI as (l & j & Hl & Hj & ->). exists (path l j). rewrite node_at_level, NE.
  split; [now apply path_in|]. split; [now apply node_data|]. destruct l; cbn [node_at n_effect]; [assumption|]. unfold effect_at. now rewrite NE.
Qed.
Print Assumptions C41_no_effects_partial.

(** * C42  Node names are unique and parents are resolved correctly *)
(** For every naming of the features, every text of the positions and every depth. *)
Theorem C42_names : forall g fmt scale r ss important (only : bool) t, wf_regions g -> named g scale ->
  search_all_splits g = Ok (Some (r, ss)) -> chosen g r ss important ->
  splits_to_tree g fmt (Some (r, ss)) important only scale = Ok (Some t) ->
  NoDup (map n_name t) /\ (forall n, In n t -> get_node t (n_name n) = Some n) /\
  (forall k n, nth_error t k = Some n -> n_idx n = k).
Proof.
  intros g fmt scale r ss important only t W NM SR CH HT.
  rewrite (search_tree g fmt scale r ss W NM SR important only CH) in HT. injection HT as <-.
  set (used := if only then important else ss) in *. clearbody used.
  split; [apply tree_to_names|]. split; [intros n Hn; apply find_NoDup; [apply tree_to_names|assumption]|].
  intros k n Hk. pose proof Hk as HI. apply nth_error_In in HI. apply in_tree_to in HI as (l & j & Hl & Hj & ->).
  pose proof (tree_nth g fmt scale (r_heter r) used (length used) l j Hl Hj) as HK. rewrite node_at_idx by assumption.
  pose proof (NoDup_map_inv _ _ (tree_to_names g fmt scale (r_heter r) used (length used))) as ND. rewrite NoDup_nth_error in ND.
  symmetry. apply ND; [apply nth_error_Some; congruence|congruence].
Qed.
Print Assumptions C42_names.
(** The parent stored in a node is the node of the previous level whose instances it splits. *)
Theorem C42_parents : forall g fmt scale r ss important (only : bool) t n, wf_regions g -> named g scale ->
  search_all_splits g = Ok (Some (r, ss)) -> chosen g r ss important ->
  splits_to_tree g fmt (Some (r, ss)) important only scale = Ok (Some t) -> In n t ->
  match n_parent n with
  | None => n_level n = 0%nat
  | Some k => exists q s b, nth_error t k = Some q /\ n_level n = S (n_level q) /\
                nth_error (if only then important else ss) (n_level q) = Some s /\
                n_data n = filter (fun x => Bool.eqb (satisfies (cond_of s) x) b) (n_data q)
  end.
Proof.
  intros g fmt scale r ss important only t n W NM SR CH HT HI.
  rewrite (search_tree g fmt scale r ss W NM SR important only CH) in HT. injection HT as <-.
  set (used := if only then important else ss) in *. clearbody used.
  apply in_tree_to in HI as (l & j & Hl & Hj & ->). destruct l as [|l]; [reflexivity|].
  change (n_parent (node_at g fmt scale (r_heter r) used (S l) j)) with (Some (2 ^ l - 1 + j / 2)%nat). cbv iota beta.
  pose proof (half_lt j l Hj) as Hh. eexists _, (nth l used d0), (Nat.even j). split; [apply tree_nth; [lia|exact Hh]|]. rewrite !node_at_level.
  split; [reflexivity|]. split; [apply nth_error_nth'; lia|]. rewrite !node_data by assumption.
  pose proof (region_child g fmt (r_heter r) used l j ltac:(lia) Hj) as R. exact R.
Qed.
Print Assumptions C42_parents.

(** * C43  Node labels describe the split *)
Definition holds (c : comparison) (v p : Qc) : Prop :=
  match c with CmpEq => v = p | CmpNe => v <> p | CmpLe => v <= p | CmpGt => p < v end.
(** False for an instance exactly at the position: it goes to the side labelled ">". *)
Definition ex_tie : regions :=
  mkRegions 0 (fun x _ => match x with [] | [_] => Ok BIG_M | _ => Ok (variance (map (fun r => r@1 * r@1) x)) end)
            (mkData Float64 2 [qs [0; 0]; qs [1; 0]; qs [2; 2]; qs [3; 2]; qs [4; 4]; qs [5; 4]]) None [Cont; Cont] ["a"; "b"]%string 1 [1]%nat [Cont] 2 1 1 0 0 false.
Theorem C43_refuted : exists g fmt r ss t n f ty p c x, wf_regions g /\ search_all_splits g = Ok (Some (r, ss)) /\
  splits_to_tree g fmt (Some (r, ss)) (choose_important_splits g (Some (r, ss))) true None = Ok (Some t) /\ In n t /\
  n_split n = Some (f, ty, p, c) /\ In x (n_data n) /\ ~ holds c x@f p.
Proof.
  exists ex_tie, ex_fmt. eexists _, _, _, _, _, _, _, _, (qs [2; 2]). split; [split; reflexivity|]. split; [vm_compute; reflexivity|].
  split; [vm_compute; reflexivity|]. split; [right; right; left; reflexivity|]. split; [reflexivity|].
  split; [left; apply (f_equal2 cons); [|apply (f_equal2 cons); [|reflexivity]]; apply Qc_is_canon; reflexivity|].
  intros H. vm_compute in H. discriminate.
Qed.
Print Assumptions C43_refuted.
(** True for categorical splits, and for numerical splits when no instance sits exactly at the position: the comparison
    holds for the instances of the node and fails for the other instances of its parent (those of its sibling). *)
Theorem C43_partial : forall g fmt scale r ss important (only : bool) t n f ty p c k q, wf_regions g -> named g scale ->
  search_all_splits g = Ok (Some (r, ss)) -> chosen g r ss important ->
  splits_to_tree g fmt (Some (r, ss)) important only scale = Ok (Some t) -> In n t ->
  n_split n = Some (f, ty, p, c) -> n_parent n = Some k -> nth_error t k = Some q ->
  (ty = Cont -> forall x, In x (rows (g_data g)) -> x@f <> p) ->
  forall x, In x (n_data q) -> (In x (n_data n) <-> holds c x@f p).
Proof.
  intros g fmt scale r ss important only t n f ty p c k q W NM SR CH HT HI HS HP HQ HX x Hx.
  rewrite (search_tree g fmt scale r ss W NM SR important only CH) in HT. injection HT as <-.
  set (used := if only then important else ss) in *. clearbody used.
  apply in_tree_to in HI as (l & j & Hl & Hj & ->). destruct l as [|l]; [discriminate|].
  cbn [node_at n_parent n_split] in HP, HS. injection HP as <-. injection HS as <- <- <- <-.
  pose proof (half_lt j l Hj) as Hh. pose proof (eq_trans (eq_sym HQ) (tree_nth g fmt scale (r_heter r) used (length used) l (j / 2) ltac:(lia) Hh)) as EQ.
  injection EQ as ->. rewrite node_data in Hx |- * by assumption.
  pose proof (region_child g fmt (r_heter r) used l j ltac:(lia) Hj) as R. unfold PartTree.cs in R. rewrite R, filter_In.
  assert (HA : In x (rows (g_data g))) by (unfold region in Hx; apply filter_In in Hx; tauto).
  specialize (fun h => HX h x HA). unfold cond_of, satisfies. set (s := sp used l) in *.
  destruct (s_type s) eqn:ET; unfold compare; destruct (Nat.even j); cbn [holds].
  - rewrite eqb_true_id, Qceqb_eq. tauto.
  - rewrite eqb_false_negb, negb_true_iff, Qceqb_neq. tauto.
  - rewrite eqb_true_id, Qcltb_lt. specialize (HX eq_refl). split; [intros [_ H]; qlra|]. intros H. split; [assumption|].
    destruct (Qcle_lt_or_eq _ _ H); [assumption|contradiction].
  - rewrite eqb_false_negb, negb_true_iff, Qcltb_ge. specialize (HX eq_refl). split; [|intros H; split; [assumption|qlra]].
    intros [_ H]. destruct (Qcle_lt_or_eq _ _ H) as [|E]; [assumption|]. symmetry in E. contradiction.
Qed.
Print Assumptions C43_partial.
Example C43_instance : exists r ss t n f ty p c k q, search_all_splits ex_g = Ok (Some (r, ss)) /\
  splits_to_tree ex_g ex_fmt (Some (r, ss)) (choose_important_splits ex_g (Some (r, ss))) true None = Ok (Some t) /\
  nth_error t 4 = Some n /\ n_split n = Some (f, ty, p, c) /\ n_parent n = Some k /\ nth_error t k = Some q /\ c = CmpGt /\
  forallb (fun x => negb (x@f =? p)) (rows (g_data ex_g)) = true.
Proof.
  eexists _, _, _, _, _, _, _, _, _, _. split; [vm_compute; reflexivity|]. split; [vm_compute; reflexivity|].
  split; [reflexivity|]. split; [reflexivity|]. split; [reflexivity|]. split; [reflexivity|]. split; vm_compute; reflexivity.
Qed.

(** * C44  min_points_per_subregion is respected by important splits *)
(** The heterogeneity functions of regional_effect_*.py penalise small subregions with BIG_M. *)
Definition penalises (g : regions) : Prop := forall x e, (length x < g_min_points g)%nat -> g_heter g x e = Ok BIG_M.
(** False: the penalty is only weighted against the other subregions. Ten instances, min_points = 2, the heterogeneity
    of the whole dataset is 9e7: separating one instance is still "important". *)
Definition ex_big : regions :=
  mkRegions 0 (fun x _ => if Nat.ltb (length x) 2 then Ok BIG_M else if Nat.ltb (length x) 10 then Ok 0 else Ok (qz 90000000))
            (mkData Float64 2 (map (fun k => [qn k; if Nat.eqb k 0 then 1 else 0]) (seq 0 10))) None [Cont; Cont] ["a"; "b"]%string 3 [1]%nat [Cat] 2 1 1
            (Q2Qc (1 # 10)) 0 false.
Theorem C44_refuted : exists g r ss s k, wf_regions g /\ penalises g /\ (forall x e v, g_heter g x e = Ok v -> 0 <= v <= BIG_M) /\ 0 <= g_drop_thres g /\
  search_all_splits g = Ok (Some (r, ss)) /\ In s (choose_important_splits g (Some (r, ss))) /\ In k (s_nof s) /\ (k < g_min_points g)%nat.
Proof.
  exists ex_big. eexists _, _, _, 1%nat. split; [split; reflexivity|].
  split. { intros x e H. unfold ex_big, g_heter, g_min_points in *. destruct (Nat.ltb_spec (length x) 2); [reflexivity|lia]. }
  split. { intros x e v H. unfold ex_big, g_heter in H. destruct (Nat.ltb (length x) 2); [|destruct (Nat.ltb (length x) 10)]; injection H as <-; split; qlra || (vm_compute; discriminate). }
  split; [vm_compute; discriminate|]. split; [vm_compute; reflexivity|]. split; [left; reflexivity|]. split; [|simpl; lia]. vm_compute. tauto.
Qed.
Print Assumptions C44_refuted.
(** True when the heterogeneity of the dataset is small compared with BIG_M: h0 (N + 2^levels) <= BIG_M. *)
Theorem C44_partial : forall g r ss, wf_regions g -> penalises g -> (forall x e v, g_heter g x e = Ok v -> 0 <= v) -> 0 <= g_drop_thres g ->
  search_all_splits g = Ok (Some (r, ss)) ->
  r_heter r * qn (length (rows (g_data g)) + 2 ^ g_max_levels g) <= BIG_M ->
  forall s k, In s (choose_important_splits g (Some (r, ss))) -> In k (s_nof s) -> (g_min_points g <= k)%nat.
Proof.
  intros g r ss W PE HP TH SR HB s k Hs Hk. destruct (Nat.le_gt_cases (g_min_points g) k) as [|Hlt]; [assumption|]. exfalso.
  pose proof (C39_search g r ss W HP SR) as NN. destruct (search_inv g r ss W SR) as (_ & _ & _ & ML & _ & HL & _).
  assert (HC : exists m, choose_important_splits g (Some (r, ss)) = firstn m ss /\ (m <= length ss)%nat /\ all_drop (g_drop_thres g) (levels r ss) m).
  { destruct (Qc_eq_dec (r_heter r) BIG_M) as [E|NE]; [exists 0%nat; rewrite C39_nothing by (now left); repeat split; [lia|intros ? ?; lia]|].
    destruct (Qclt_le_dec (r_heter r) (g_small_enough g)) as [L|L]; [exists 0%nat; rewrite C39_nothing by (now right); repeat split; [lia|intros ? ?; lia]|].
    destruct (C39_longest_prefix g r ss NN NE L) as (m & E1 & E2 & E3 & _). eauto. }
  destruct HC as (m & Em & Hm & HD). rewrite Em in Hs.
  assert (HI : exists l, (l < m)%nat /\ nth l ss s = s).
  { apply (In_nth _ _ s) in Hs as (l & Hl & El). rewrite firstn_length in Hl. exists l. split; [lia|].
    rewrite <- (firstn_skipn m ss), app_nth1 by (rewrite firstn_length; lia). exact El. }
  destruct HI as (l & Hl & El). pose proof (HL l ltac:(lia) s) as LO. rewrite El in LO. destruct LO as [_ L2 L3 L4 _ _ _ _ _].
  (* the weighted heterogeneity of the level is below the heterogeneity of the dataset *)
  set (h := levels r ss) in *.
  assert (DEC : forall j, (j <= l)%nat -> h@(S j) < r_heter r).
  { assert (G : forall j, (j <= length ss)%nat -> 0 <= h@j) by (intros j Hj; apply NN, nth_In; unfold h, levels; simpl; rewrite map_length; lia).
    induction j as [|j IHj]; intros Hj.
    - specialize (HD 0%nat ltac:(lia)). pose proof (G 0%nat ltac:(lia)) as G0. change (h@0) with (r_heter r) in *. qnra.
    - specialize (IHj ltac:(lia)). specialize (HD (S j) ltac:(lia)). pose proof (G (S j) ltac:(lia)) as G0. qnra. }
  specialize (DEC l (le_n l)). assert (EW : h@(S l) = s_wheter s).
  { unfold h, levels. cbn [nth]. rewrite nth_map_in with (d := s) by lia. now rewrite El. }
  rewrite EW, L4 in DEC.
  (* but the small subregion alone contributes BIG_M / (N + 2^(l+1)) *)
  apply (In_nth _ _ 0%nat) in Hk as (i & Hi & Ei). pose proof (heterogeneities_length _ _ _ _ _ _ L2) as LH. rewrite paths_length in LH.
  assert (LN : length (s_nof s) = (2 ^ S l)%nat) by (rewrite L3; unfold sizes; rewrite map_length; apply paths_length).
  assert (HV : forall v, In v (s_heter s) -> 0 <= v).
  { intros v Hv. apply (In_nth _ _ 0) in Hv as (q & Hq & <-). apply (Forall2_nth _ _ _ [] 0) in L2 as [_ L2]. eapply HP, (L2 q). rewrite paths_length. lia. }
  pose proof (weighted_entry (s_nof s) (s_heter s) i ltac:(lia) HV Hi) as WE.
  assert (HB' : (s_heter s)@i = BIG_M).
  { apply (Forall2_nth _ _ _ [] 0) in L2 as [_ L2]. specialize (L2 i ltac:(rewrite paths_length; lia)). cbv beta in L2.
    rewrite PE in L2; [now injection L2|]. rewrite L3 in Ei. unfold sizes in Ei. rewrite nth_map_in with (d := []) in Ei by (rewrite paths_length; lia). lia. }
  rewrite HB' in WE.
  assert (SZ : sumn (map (fun a => a + 1)%nat (s_nof s)) = (length (rows (g_data g)) + 2 ^ S l)%nat).
  { rewrite <- LN. assert (A : forall q, sumn (map (fun a => a + 1)%nat q) = (sumn q + length q)%nat) by (induction q; simpl; lia). rewrite A. f_equal.
    rewrite L3. unfold sizes. rewrite <- (map_map (region (rows (g_data g)) (map cond_of ss)) (fun d => length d)).
    etransitivity; [apply (sumn_lengths (A := list Qc))|]. apply Permutation_length, region_partition. rewrite map_length. lia. }
  rewrite SZ in WE. set (M := (length (rows (g_data g)) + 2 ^ S l)%nat) in *.
  assert (M1 : (M <= length (rows (g_data g)) + 2 ^ g_max_levels g)%nat).
  { unfold M. apply Nat.add_le_mono_l. apply Nat.pow_le_mono_r; lia. }
  assert (Mp : 0 < qn M) by (apply qn_pos; unfold M; pose proof (two_pow_pos (S l)); lia).
  apply qn_le in M1.
  assert (H0 : 0 <= r_heter r) by (apply NN; left; reflexivity).
  assert (K1 : 1 <= qn (nth i (s_nof s) 0%nat + 1)) by (rewrite qn_add, qn_1; pose proof (qn_nonneg (nth i (s_nof s) 0%nat)); qlra).
  assert (B0 : 0 < BIG_M) by qlra.
  assert (ED : qn M * (qn (nth i (s_nof s) 0%nat + 1) / qn M * BIG_M) = qn (nth i (s_nof s) 0%nat + 1) * BIG_M) by (field; intros E; rewrite E in Mp; qlra).
  set (a := qn (nth i (s_nof s) 0%nat + 1)) in *. set (w := weighted (s_nof s) (s_heter s)) in *.
  assert (T1 : a * BIG_M <= qn M * w). { rewrite <- ED. clear - WE Mp. qnra. }
  assert (T2 : qn M * w < qn M * r_heter r). { clear - DEC Mp. qnra. }
  assert (T3 : qn M * r_heter r <= r_heter r * qn (length (rows (g_data g)) + 2 ^ g_max_levels g)). { clear - M1 H0. qnra. }
  assert (T4 : BIG_M <= a * BIG_M). { clear - K1 B0. qnra. }
  clear - T1 T2 T3 T4 HB. qlra.
Qed.
Print Assumptions C44_partial.
Definition ex_pen : regions :=
  mkRegions 0 (fun x _ => if Nat.ltb (length x) 2 then Ok BIG_M else Ok (variance (map (fun r => qz 10 * r@1 + r@2) x)))
            (mkData Float64 3 ex_X) None [Cont; Cont; Cont] ex_names 3 [1; 2]%nat [Cont; Cont] 2 2 2 (Q2Qc (1 # 10)) 0 false.
Lemma sumq_nonneg' l : (forall v, In v l -> 0 <= v) -> 0 <= sumq l.
Proof. induction l as [|a l IH]; simpl; intros H; [qlra|]. pose proof (H a (or_introl eq_refl)). assert (0 <= sumq l) by auto. qlra. Qed.
Lemma variance_nonneg l : 0 <= variance l.
Proof.
  unfold variance, mean. destruct (Nat.eq_dec (length l) 0) as [E|NE].
  - apply length_zero_iff_nil in E. subst. vm_compute. discriminate.
  - apply Qcdiv_le_0; [|apply qn_pos; rewrite map_length; lia].
    apply sumq_nonneg'. intros v Hv. apply in_map_iff in Hv as (e & <- & _). generalize (e - sumq l / qn (length l)). intros z. qnra.
Qed.
Example C44_instance : wf_regions ex_pen /\ penalises ex_pen /\ (forall x e v, g_heter ex_pen x e = Ok v -> 0 <= v) /\ 0 <= g_drop_thres ex_pen /\
  exists r ss, search_all_splits ex_pen = Ok (Some (r, ss)) /\ r_heter r * qn (length (rows (g_data ex_pen)) + 2 ^ g_max_levels ex_pen) <= BIG_M /\
  length (choose_important_splits ex_pen (Some (r, ss))) = 2%nat.
Proof.
  split; [split; [reflexivity|exact I]|]. split. { intros x e H. unfold ex_pen, g_heter, g_min_points in *. destruct (Nat.ltb_spec (length x) 2); [reflexivity|lia]. }
  split. { intros x e v H. unfold ex_pen, g_heter in H. destruct (Nat.ltb (length x) 2); injection H as <-; [vm_compute; discriminate|apply variance_nonneg]. }
  split; [vm_compute; discriminate|]. eexists _, _. split; [vm_compute; reflexivity|]. split; [vm_compute; discriminate|vm_compute; reflexivity].
Qed.

(** * C46  Depth and early stopping *)
Theorem C46_depth : forall g r ss, wf_regions g -> search_all_splits g = Ok (Some (r, ss)) ->
  let X := rows (g_data g) in let cs := map cond_of ss in
  (1 <= length ss <= g_max_levels g)%nat /\
  (* the split of level l divides 2^l subregions into 2^(l+1), and each of the former has at least min_points instances *)
  (forall l s, nth_error ss l = Some s -> length (s_nof s) = (2 ^ S l)%nat /\ length (s_heter s) = (2 ^ S l)%nat /\
     forall p, In p (paths l) -> (g_min_points g <= length (region X cs p))%nat) /\
  (* it stops early only because some subregion of the last level is too small *)
  ((length ss < g_max_levels g)%nat -> exists p, In p (paths (length ss)) /\ (length (region X cs p) < g_min_points g)%nat).
Proof.
  intros g r ss W SR X cs. destruct (search_inv g r ss W SR) as (_ & _ & NE & ML & _ & HL & ST).
  split; [destruct ss; [congruence|simpl in *; lia]|]. split; [|exact ST].
  intros l s HN. apply nth_error_Some_nth with (d := s) in HN as [Hl Es]. pose proof (HL l Hl s) as LO. rewrite Es in LO. destruct LO as [L1 L2 L3 _ _ _ _ _ _].
  split; [rewrite L3; unfold sizes; rewrite map_length; apply paths_length|]. split; [rewrite (heterogeneities_length _ _ _ _ _ _ L2); apply paths_length|exact L1].
Qed.
Print Assumptions C46_depth.
(** No split at all: too few instances, depth 0, or a categorical feature of interest that is not to be split. *)
Theorem C46_none : forall g f, search_all_splits g = Ok f ->
  (length (rows (g_data g)) < g_min_points g)%nat \/ g_max_levels g = 0%nat \/ (nth_error (g_types g) (g_feature g) = Some Cat /\ g_split_cat g = false) ->
  f = None.
Proof.
  intros g f SR H. unfold search_all_splits in SR. apply bind_ok in SR as (t & Ht & SR).
  assert (HT : nth_error (g_types g) (g_feature g) = Some t) by (unfold getn in Ht; destruct (nth_error (g_types g) (g_feature g)); congruence).
  assert (A : (length (rows (g_data g)) < g_min_points g)%nat \/ g_max_levels g = 0%nat ->
    (passert (Nat.leb (g_max_levels g) (length (g_foc g))) ;;
      h0 <- g_heter g (rows (g_data g)) (g_effect g) ;;
      ss <- search_levels g (g_max_levels g) [rows (g_data g)] (option_map (fun e => [e]) (g_effect g)) [h0] [] ;;
      match ss with [] => Ok None | _ => Ok (Some (mkRoot h0 (length (rows (g_data g))), ss)) end) = Ok f -> f = None).
  { intros HA HB. apply bind_ok in HB as (u & _ & HB). apply bind_ok in HB as (h0 & _ & HB). apply bind_ok in HB as (ss & HS & HB).
    destruct (g_max_levels g) as [|n]; [simpl in HS; injection HS as <-; simpl in HB; congruence|]. destruct HA as [HA|HA]; [|discriminate].
    simpl in HS. apply Nat.ltb_lt in HA. rewrite HA in HS. simpl in HS. injection HS as <-. congruence. }
  destruct t.
  - destruct (g_split_cat g) eqn:EC; [|congruence]. apply A; [|exact SR]. destruct H as [H|[H|[_ H]]]; [now left|now right|discriminate].
  - apply A; [|exact SR]. destruct H as [H|[H|[H _]]]; [now left|now right|congruence].
Qed.
Print Assumptions C46_none.
Example C46_instance : wf_regions ex_g /\ exists r ss, search_all_splits ex_g = Ok (Some (r, ss)) /\ length ss = 2%nat.
Proof. split; [apply ex_wf|]. eexists _, _. split; vm_compute; reflexivity. Qed.

(** * C47  Candidate tables fit the candidates *)
(** False (1): a feature declared categorical by the user with more values than max(nof_candidate_splits, cat_limit);
    here the documented defaults 20 and 10, and 25 instances with distinct values. *)
Definition ex_wide : regions :=
  mkRegions 0 (fun x _ => Ok 1) (mkData Float64 2 (map (fun k => [qn k; qn k]) (seq 0 25))) None [Cont; Cat] ["a"; "b"]%string 10 [1]%nat [Cat] 10 20 1 0 0 false.
Theorem C47_refuted : exists g, wf_regions g /\ rows (g_data g) <> [] /\ (1 <= g_nof_splits g)%nat /\ (forall f, In f (g_foc g) -> (f < dim (g_data g))%nat) /\
  total_heter (g_heter g) (rows (g_data g)) (g_effect g) /\ (g_max_levels g <= length (g_foc g))%nat /\ search_all_splits g = Raise IndexError.
Proof.
  exists ex_wide. split; [split; reflexivity|]. split; [discriminate|]. split; [simpl; lia|]. split; [intros f [<-|[]]; simpl; lia|].
  split; [intros x e; exists 1; split; [reflexivity|split; vm_compute; discriminate]|]. split; [simpl; lia|]. vm_compute. reflexivity.
Qed.
Print Assumptions C47_refuted.
(** False (2): heterogeneities above BIG_M make an unfilled cell (-BIG_M) the maximum. *)
Definition ex_huge : regions :=
  mkRegions 0 (fun x _ => if Nat.ltb (length x) 4 then Ok (qz 300000000) else Ok 1)
            (mkData Float64 2 (map (fun k => [qn k; if Nat.ltb k 2 then 0 else 1]) (seq 0 4))) None [Cont; Cat] ["a"; "b"]%string 10 [1]%nat [Cat] 2 20 1 0 0 false.
Theorem C47_overflow_refuted : exists g, wf_regions g /\ rows (g_data g) <> [] /\ (1 <= g_nof_splits g)%nat /\ (forall f, In f (g_foc g) -> (f < dim (g_data g))%nat) /\
  (forall f, In (f, Cat) (combine (g_foc g) (g_foc_types g)) -> (length (unique (values (rows (g_data g)) f)) <= g_cat_limit g)%nat) /\
  (forall x e, exists v, g_heter g x e = Ok v /\ 0 <= v) /\ (g_max_levels g <= length (g_foc g))%nat /\ search_all_splits g = Raise IndexError.
Proof.
  exists ex_huge. split; [split; reflexivity|]. split; [discriminate|]. split; [simpl; lia|]. split; [intros f [<-|[]]; simpl; lia|].
  split; [intros f [E|[]]; injection E as <-; vm_compute; lia|].
  split. { intros x e. unfold ex_huge, g_heter. destruct (Nat.ltb (length x) 4); eexists; (split; [reflexivity|vm_compute; discriminate]). }
  split; [simpl; lia|]. vm_compute. reflexivity.
Qed.
Print Assumptions C47_overflow_refuted.
(** True when the categorical features have at most max(nof_candidate_splits, cat_limit) values and the heterogeneities
    lie in [0, BIG_M]: the search never fails. *)
Theorem C47_partial : forall g, wf_regions g -> rows (g_data g) <> [] -> g_foc g <> [] -> (forall f, In f (g_foc g) -> (f < dim (g_data g))%nat) ->
  (1 <= g_nof_splits g)%nat -> total_heter (g_heter g) (rows (g_data g)) (g_effect g) ->
  (forall f, In (f, Cat) (combine (g_foc g) (g_foc_types g)) -> (length (unique (values (rows (g_data g)) f)) <= Nat.max (g_nof_splits g) (g_cat_limit g))%nat) ->
  (g_feature g < length (g_types g))%nat -> (g_max_levels g <= length (g_foc g))%nat ->
  exists f, search_all_splits g = Ok f.
Proof. intros. apply search_ok; [constructor|..]; assumption. Qed.
Print Assumptions C47_partial.
(** In particular for the feature types inferred from the data (feature_types=None, the default). *)
Theorem C47_inferred_types_partial : forall s h X E names cl cands mp ns ml thres small sc g,
  regions_init s h X E None names cl cands mp ns ml thres small sc = Ok g ->
  aligned (rows X) E -> rows X <> [] -> g_foc g <> [] -> (s < dim X)%nat -> (1 <= ns)%nat -> total_heter h (rows X) E -> (ml <= length (g_foc g))%nat ->
  exists f, search_all_splits g = Ok f.
Proof.
  intros s h X E names cl cands mp ns ml thres small sc g HI HE NE NF Hs Hn HT HM. unfold regions_init in HI.
  set (foc := match cands with AllFeatures => _ | Features l => l end) in HI. apply bind_ok in HI as (ft & HF & HI). injection HI as <-.
  simpl in *. apply mapM_Forall2 in HF. pose proof (proj1 (Forall2_nth _ _ _ 0%nat Cont HF)) as LF.
  assert (TY : forall (i : nat) f t, In f foc -> getn (get_feature_types X cl) f = Ok t -> (f < dim X)%nat /\ (t = Cat -> (length (unique (values (rows X) f)) < cl)%nat)).
  { intros _ f t _ HG. apply (getn_inv _ _ _ Cont) in HG as [Hf Ht]. unfold get_feature_types in Hf, Ht. rewrite map_length, seq_length in Hf.
    split; [assumption|]. rewrite nth_map_in with (d := 0%nat) in Ht by now rewrite seq_length. rewrite nth_seq in Ht by assumption. simpl in Ht.
    intros ->. change (col (rows X) f) with (values (rows X) f) in Ht. destruct (Nat.ltb_spec (length (unique (values (rows X) f))) cl); [assumption|congruence]. }
  apply C47_partial; simpl; try assumption.
  - split; [symmetry; exact LF|assumption].
  - intros f Hf. apply (In_nth _ _ 0%nat) in Hf as (i & Hi & Ef). apply (Forall2_nth _ _ _ 0%nat Cont) in HF as [_ HF]. specialize (HF i Hi). rewrite Ef in HF.
    apply (TY i f _) in HF; [tauto|]. rewrite <- Ef. now apply nth_In.
  - intros f Hf. apply (In_nth _ _ (0%nat, Cont)) in Hf as (i & Hi & Ef). rewrite combine_length in Hi. rewrite combine_nth_lt in Ef by lia.
    injection Ef as Ef Et. apply (Forall2_nth _ _ _ 0%nat Cont) in HF as [_ HF]. specialize (HF i ltac:(lia)). rewrite Ef, Et in HF.
    apply (TY i f Cat) in HF as [_ HF]; [specialize (HF eq_refl); lia|]. rewrite <- Ef. apply nth_In. lia.
  - unfold get_feature_types. now rewrite map_length, seq_length.
Qed.
Print Assumptions C47_inferred_types_partial.
Example C47_instance : exists g, regions_init 0 (fun x _ => Ok (qn (length x))) (mkData Float64 3 ex_X) None None ex_names 10 AllFeatures 2 3 2 0 0 false = Ok g /\
  g_foc g = [1; 2]%nat /\ g_foc_types g = [Cat; Cat] /\ (g_max_levels g <= length (g_foc g))%nat /\
  total_heter (g_heter g) (rows (g_data g)) (g_effect g).
Proof.
  eexists. split; [vm_compute; reflexivity|]. split; [reflexivity|]. split; [reflexivity|]. split; [simpl; lia|].
  intros cs p. eexists. split; [reflexivity|]. split; [apply qn_nonneg|].
  assert (length (region ex_X cs p) <= 8)%nat as L.
  { unfold region. change 8%nat with (length ex_X). clear. induction ex_X as [|a l IH]; simpl; [lia|]. destruct (inside cs p a); simpl; lia. }
  apply qn_le in L. change (length (region (rows (g_data _)) cs p)) with (length (region ex_X cs p)). cbn [g_data rows].
  apply (Qcle_trans _ (qn 8)); [exact L|vm_compute; discriminate].
Qed.
