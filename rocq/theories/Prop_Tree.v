(** Properties C45 and C58-C60: the partition tree and the DataTransformer (partitioning.py); see Prop_Partition.v. *)
From Verif Require Import Base Numpy Spec NumpyFacts Utils UtilsProofs PartSpec Partition PartProofs PartSearch PartTree PartFacts PartNodes PartTransform Prop_Partition.
Open Scope Qc_scope.
Open Scope list_scope.

(** * C45  DataTransformer is a lossless masking consistent with the partition *)
(** [sp] lists the splits of the features by key; [in_order sp D]: the keys are 0, ..., D-1 in this order (the dictionary was
    filled feature by feature); [splits_of sp f] are the splits of feature f. *)
Definition leaf_cond (s : dsplit) : cond := (d_feature s, d_type s, d_position s).
Definition known_features (sp : dsplits) (D : nat) : Prop := forall f s, (f < D)%nat -> In s (splits_of sp f) -> (d_feature s < D)%nat.
(** 2^k copies, all zero except copy [j], which is the value [v]. *)
Definition one_active (k j : nat) (v : Qc) : list Qc := map (fun i => if Nat.eqb i j then v else 0) (seq 0 (2 ^ k)).
Lemma one_active_sum k j v : (j < 2 ^ k)%nat -> sumq (one_active k j v) = v.
Proof.
  unfold one_active. intros H. set (n := (2 ^ k)%nat) in *. clearbody n.
  assert (G : forall a m, sumq (map (fun i => if Nat.eqb i j then v else 0) (seq a m)) = if (Nat.leb a j && Nat.ltb j (a + m))%bool then v else 0).
  { intros a m. revert a. induction m as [|m IH]; intros a; simpl.
    - destruct (Nat.leb_spec a j); destruct (Nat.ltb_spec j (a + 0)); simpl; try reflexivity; lia.
    - rewrite IH. destruct (Nat.eqb_spec a j); destruct (Nat.leb_spec (S a) j); destruct (Nat.leb_spec a j); destruct (Nat.ltb_spec j (S a + m)); destruct (Nat.ltb_spec j (a + S m)); simpl; try lia; ring. }
  rewrite G. destruct (Nat.leb_spec 0 j); [|lia]. destruct (Nat.ltb_spec j (0 + n)); [reflexivity|lia].
Qed.
Theorem C45_lossless : forall sp X, in_order sp (dim X) -> known_features sp (dim X) ->
  exists M, transform sp X = Ok M /\ length M = length (rows X) /\
  forall i r, nth_error (rows X) i = Some r -> exists blocks, nth_error M i = Some (concat blocks) /\ length blocks = dim X /\
    forall f, (f < dim X)%nat -> exists j, (j < 2 ^ length (splits_of sp f))%nat /\
      nth f blocks [] = one_active (length (splits_of sp f)) j r@f /\ sumq (nth f blocks []) = r@f.
Proof.
  intros sp X HO HK.
  assert (E : transform sp X = Ok (map (fun r => concat (map (block sp r) (seq 0 (dim X)))) (rows X))).
  { unfold transform. apply mapM_Forall2. induction (rows X) as [|r l IH]; simpl; constructor; [|assumption]. now apply transform_row_ok. }
  eexists. split; [exact E|]. split; [apply map_length|]. intros i r Hr. exists (map (block sp r) (seq 0 (dim X))).
  split; [rewrite nth_error_map, Hr; reflexivity|]. split; [rewrite map_length; apply seq_length|]. intros f Hf.
  destruct (mask_block_one sp r f) as (j & Hj & _ & Em). exists j. split; [assumption|].
  rewrite nth_map_in with (d := 0%nat) by now rewrite seq_length. rewrite nth_seq by assumption. simpl plus.
  assert (EB : block sp r f = one_active (length (splits_of sp f)) j r@f).
  { unfold block, one_active. rewrite Em, map_map. apply map_ext. intros q. destruct (Nat.eqb q j); ring. }
  rewrite EB. split; [reflexivity|]. now apply one_active_sum.
Qed.
Print Assumptions C45_lossless.
(** The active copy is the leaf that contains the row, when no value of the row equals a numerical split position. *)
Theorem C45_consistent_partial : forall sp X M, in_order sp (dim X) -> known_features sp (dim X) -> transform sp X = Ok M ->
  forall i r f, nth_error (rows X) i = Some r -> (f < dim X)%nat ->
  (forall s, In s (splits_of sp f) -> d_type s = Cont -> r@(d_feature s) <> d_position s) ->
  exists blocks j, nth_error M i = Some (concat blocks) /\ length blocks = dim X /\ (j < 2 ^ length (splits_of sp f))%nat /\
    nth f blocks [] = one_active (length (splits_of sp f)) j r@f /\
    inside (map leaf_cond (splits_of sp f)) (nth j (paths (length (splits_of sp f))) []) r = true.
Proof.
  intros sp X M HO HK HM i r f Hr Hf HT.
  assert (E : transform sp X = Ok (map (fun r => concat (map (block sp r) (seq 0 (dim X)))) (rows X))).
  { unfold transform. apply mapM_Forall2. clear -HO HK. induction (rows X) as [|r l IH]; simpl; constructor; [|assumption]. now apply transform_row_ok. }
  rewrite E in HM. injection HM as <-. destruct (mask_block_one sp r f) as (j & Hj & Ej & Em).
  exists (map (block sp r) (seq 0 (dim X))), j. split; [rewrite nth_error_map, Hr; reflexivity|]. split; [rewrite map_length; apply seq_length|].
  split; [assumption|]. split.
  - rewrite nth_map_in with (d := 0%nat) by now rewrite seq_length. rewrite nth_seq by assumption. simpl plus.
    unfold block, one_active. rewrite Em, map_map. apply map_ext. intros q. destruct (Nat.eqb q j); ring.
  - set (ss := splits_of sp f) in *. rewrite product01_paths in Ej.
    rewrite nth_map_in with (d := []) in Ej by now rewrite paths_length. set (p := nth j (paths (length ss)) []) in *.
    assert (EP : p = map (fun s => negb (side s r)) ss).
    { apply (f_equal (map negb)) in Ej. rewrite !map_map in Ej. rewrite (map_ext (fun x => negb (negb x)) (fun x => x)) in Ej by (intros; apply negb_involutive).
      rewrite map_id in Ej. exact Ej. }
    rewrite EP. clear - HT. induction ss as [|s ss IH]; [reflexivity|]. unfold inside. cbn [map combine forallb fst snd].
    apply andb_true_iff. split; [|apply IH; intros; apply HT; [now right|assumption]].
    unfold side. rewrite negb_involutive. specialize (HT s (or_introl eq_refl)). unfold leaf_cond, satisfies, d_side.
    change (nth (d_feature s) r 0) with (r@(d_feature s)). destruct (d_type s); [apply eqb_reflx|]. specialize (HT eq_refl).
    destruct (Qcltb_spec r@(d_feature s) (d_position s)); destruct (Qcleb_spec r@(d_feature s) (d_position s)); try reflexivity; exfalso.
    + qlra.
    + apply HT. apply Qcle_antisym; assumption.
Qed.
Print Assumptions C45_consistent_partial.
(** False for a row exactly at the position: the tree sends it to the "no" side, transform to the "yes" side. *)
Theorem C45_refuted : exists sp X M r f blocks j, in_order sp (dim X) /\ known_features sp (dim X) /\ transform sp X = Ok M /\
  rows X = [r] /\ (f < dim X)%nat /\ M = [concat blocks] /\ length blocks = dim X /\
  nth f blocks [] = one_active (length (splits_of sp f)) j r@f /\ r@f <> 0 /\
  inside (map leaf_cond (splits_of sp f)) (nth j (paths (length (splits_of sp f))) []) r = false.
Proof.
  exists [(0%nat, [mkD Cont 1 (qz 2)]); (1%nat, [])], (mkData Float64 2 [qs [5; 2]]). eexists _, (qs [5; 2]), 0%nat, [qs [5; 0]; qs [2]], 0%nat.
  split; [reflexivity|]. split; [intros [|[|f]] s; simpl; intuition; subst; simpl; lia|]. split; [vm_compute; reflexivity|]. split; [reflexivity|].
  split; [simpl; lia|]. split; [repeat f_equal; apply Qc_is_canon; vm_compute; reflexivity|]. split; [reflexivity|].
  split; [simpl; unfold one_active; simpl; reflexivity|]. split; [intros E; apply (f_equal this) in E; vm_compute in E; discriminate|]. vm_compute. reflexivity.
Qed.
Print Assumptions C45_refuted.
(** Lossless is false when the dictionary was filled in another order, e.g. by fit(features=[1, 0]): the copies of
    feature 1 are both active. *)
Theorem C45_order_refuted : exists sp X M, Permutation (map fst sp) (seq 0 (dim X)) /\ rows X = [qs [5; 2]] /\
  transform sp X = Ok M /\ map show M = [[5; 2; 2]]%Q.
Proof.
  exists [(1%nat, []); (0%nat, [mkD Cont 1 (qz 3)])], (mkData Float64 2 [qs [5; 2]]). eexists. split; [apply perm_swap|]. split; [reflexivity|].
  split; vm_compute; reflexivity.
Qed.
Print Assumptions C45_order_refuted.
Example C45_instance : let sp := [(0%nat, [mkD Cont 1 (qz 3); mkD Cat 2 (qz 1)]); (1%nat, []); (2%nat, [])] in
  in_order sp 3 /\ known_features sp 3 /\ rmap (map show) (transform sp (mkData Float64 3 [qs [5; 2; 1]; qs [6; 4; 0]])) = Ok [[5; 0; 0; 0; 2; 1]; [0; 0; 0; 6; 4; 0]]%Q.
Proof.
  split; [reflexivity|]. split; [intros [|[|[|f]]] s; simpl; intuition; subst; simpl; lia|]. vm_compute. reflexivity.
Qed.

(** * C58  Navigation in the tree *)
Theorem C58_navigation : forall g fmt scale r ss important (only : bool) t, wf_regions g -> named g scale ->
  search_all_splits g = Ok (Some (r, ss)) -> chosen g r ss important ->
  splits_to_tree g fmt (Some (r, ss)) important only scale = Ok (Some t) ->
  let used := if only then important else ss in
  (* the root is the whole dataset *)
  (exists root, get_root t = Ok root /\ n_level root = 0%nat /\ n_parent root = None /\ n_data root = rows (g_data g) /\ n_heter root = r_heter r) /\
  length t = (2 ^ S (length used) - 1)%nat /\
  (* a node is a child of another one exactly when it appears in its children *)
  (forall a b, In a t -> In b t -> (In b (get_children t (n_name a)) <-> n_parent b = Some (n_idx a))) /\
  (* levels *)
  (forall l n, In n (get_level_nodes t l) <-> In n t /\ n_level n = l).
Proof.
  intros g fmt scale r ss important only t W NM SR CH HT used.
  pose proof (C42_names g fmt scale r ss important only t W NM SR CH HT) as (ND & _ & HI).
  rewrite (search_tree g fmt scale r ss W NM SR important only CH) in HT. injection HT as <-. fold used. fold used in ND, HI.
  split; [eexists; split; [apply tree_root|]; repeat split|]. split; [apply tree_to_length|]. split.
  - set (t := tree_to g fmt scale (r_heter r) used (length used)) in *. clearbody t.
    intros a b Ha Hb. unfold get_children. rewrite filter_In. destruct (n_parent b) as [p|]; [|split; [intros [_ ?]; discriminate|discriminate]].
    destruct (nth_error t p) as [q|] eqn:Eq.
    + pose proof (HI p q Eq) as Hq. rewrite String.eqb_eq. split.
      * intros [_ E]. f_equal. rewrite <- Hq. f_equal. pose proof (find_NoDup t q ND (nth_error_In _ _ Eq)) as F1. pose proof (find_NoDup t a ND Ha) as F2. rewrite E in F1. congruence.
      * intros E. injection E as ->. split; [assumption|]. apply In_nth_error in Ha as (k & Hk). pose proof (HI k a Hk) as Hka. subst k. congruence.
    + split; [intros [_ ?]; discriminate|]. intros E. injection E as ->. apply In_nth_error in Ha as (k & Hk). pose proof (HI k a Hk). congruence.
  - intros l n. unfold get_level_nodes. rewrite filter_In, Nat.eqb_eq. tauto.
Qed.
Print Assumptions C58_navigation.
(** get_level_stats: the heterogeneities of the subregions weighted by their share of the instances. *)
Theorem C58_level_stats : forall g fmt scale r ss important (only : bool) t l, wf_regions g -> named g scale ->
  search_all_splits g = Ok (Some (r, ss)) -> chosen g r ss important ->
  splits_to_tree g fmt (Some (r, ss)) important only scale = Ok (Some t) ->
  let used := if only then important else ss in let X := rows (g_data g) in (l <= length used)%nat ->
  exists hs, heterogeneities (g_heter g) X (g_effect g) (map cond_of used) (paths l) hs /\
    get_level_stats t l = Ok (sumq (map (fun q => snd q * (qn (length (region X (map cond_of used) (fst q))) / qn (length X))) (combine (paths l) hs))).
Proof.
  intros g fmt scale r ss important only t l W NM SR CH HT used X Hl.
  rewrite (search_tree g fmt scale r ss W NM SR important only CH) in HT. injection HT as <-. fold used.
  pose proof (search_nonempty g r ss W SR) as NE.
  destruct (used_prefix g r ss important only CH) as (m & E & _). fold used in E. rewrite E in *. clear used E.
  set (use := firstn m ss) in *. set (nd := node_at g fmt scale (r_heter r) use l).
  exists (map (fun j => n_heter (nd j)) (seq 0 (2 ^ l))).
  assert (PS : paths l = map (fun j => path l j) (seq 0 (2 ^ l))) by (unfold path; rewrite <- paths_length; symmetry; apply map_nth_seq).
  split.
  - unfold heterogeneities. rewrite PS. assert (G : forall js, (forall j, In j js -> (j < 2 ^ l)%nat) ->
      Forall2 (fun p v => g_heter g (region X (map cond_of use) p) (option_map (fun e => region_effects X e (map cond_of use) p) (g_effect g)) = Ok v) (map (fun j => path l j) js) (map (fun j => n_heter (nd j)) js)).
    { induction js as [|j js IH]; intros HJ; simpl; constructor; [|apply IH; intros; apply HJ; now right].
      specialize (HJ j (or_introl eq_refl)). unfold nd. pose proof (node_heter g fmt scale r ss W SR m l j Hl HJ) as HH. fold use in HH.
      rewrite node_data in HH by assumption. exact HH. }
    apply G. intros j Hj. apply in_seq in Hj. lia.
  - unfold get_level_stats. rewrite tree_root. unfold bind. f_equal. rewrite level_of_tree. destruct (Nat.leb_spec l (length use)); [|lia].
    unfold level_nodes. rewrite PS, combine_maps, !map_map. f_equal. apply map_ext_in. intros j Hj. apply in_seq in Hj. fold nd. simpl.
    unfold nd. rewrite node_weight by (assumption || lia). rewrite node_data by lia. reflexivity.
Qed.
Print Assumptions C58_level_stats.
Example C58_instance : exists r ss t, search_all_splits ex_g = Ok (Some (r, ss)) /\
  splits_to_tree ex_g ex_fmt (Some (r, ss)) [] false None = Ok (Some t) /\ length t = 7%nat /\ map n_idx (get_children t (n_name (nth 1 t (nth 0 t (mkNode 0 "" None 0 0 0 0 [] None None))))) = [3; 4]%nat /\
  map (fun l => rmap this (get_level_stats t l)) [0; 1; 2]%nat = [Ok (101 # 4); Ok (1 # 4); Ok 0]%Q.
Proof.
  eexists _, _, _. split; [vm_compute; reflexivity|]. split; [vm_compute; reflexivity|]. split; [reflexivity|]. split; vm_compute; reflexivity.
Qed.

(** * C59  A Regions object does not depend on the history of calls *)
(** choose_important_splits before a search is refused. *)
Theorem C59_choose_before_search : forall g fmt cs, (forall c, In c cs -> c <> RSearch) ->
  snd (rstep g fmt (rrun g fmt rfresh cs) RChoose) = Raise AssertionError.
Proof.
  intros g fmt cs H. assert (G : forall cs st, (forall c, In c cs -> c <> RSearch) -> t_found st = false -> t_found (rrun g fmt st cs) = false).
  { clear. induction cs as [|c cs IH]; intros st H HF; simpl; [assumption|]. apply IH; [intros; apply H; now right|].
    specialize (H c (or_introl eq_refl)). destruct c; simpl; [congruence| |assumption]. rewrite HF. assumption. }
  simpl. rewrite (G cs rfresh H eq_refl). reflexivity.
Qed.
Print Assumptions C59_choose_before_search.
(** After any history that contains a search, searching again returns the same splits, choosing returns the important ones
    and building a tree uses exactly these: the results are those of a new object. *)
Theorem C59_history : forall g fmt cs f, search_all_splits g = Ok f -> In RSearch cs ->
  let st := rrun g fmt rfresh cs in
  snd (rstep g fmt st RSearch) = Ok (RFound f) /\
  snd (rstep g fmt st RChoose) = Ok (RImportant (choose_important_splits g f)) /\
  (forall scale, snd (rstep g fmt st (RTree false scale)) = (t <- splits_to_tree g fmt f [] false scale ;; Ok (RTreeIs t))) /\
  (forall c1 c2, cs = c1 ++ RChoose :: c2 -> In RSearch c1 ->
     forall scale, snd (rstep g fmt st (RTree true scale)) = (t <- splits_to_tree g fmt f (choose_important_splits g f) true scale ;; Ok (RTreeIs t))).
Proof.
  intros g fmt cs f SF HI st.
  assert (ST : forall st, t_splits st = None \/ t_splits st = f -> snd (rstep g fmt st RSearch) = Ok (RFound f) /\ t_splits (fst (rstep g fmt st RSearch)) = f).
  { intros s HS. simpl. rewrite SF. destruct f as [p|]; simpl; [auto|]. destruct HS as [HS|HS]; rewrite HS; destruct (match getn (g_types g) (g_feature g) with Ok Cat => negb (g_split_cat g) | _ => false end); auto. }
  assert (G : forall cs st, t_splits st = None \/ t_splits st = f -> let st' := rrun g fmt st cs in t_splits st' = None \/ t_splits st' = f).
  { clear - ST. induction cs as [|c cs IH]; intros st H; simpl; [assumption|]. apply IH. destruct c; simpl.
    - right. apply (ST st H).
    - destruct (t_found st); assumption.
    - assumption. }
  assert (G2 : forall cs st, t_splits st = f -> t_splits (rrun g fmt st cs) = f).
  { clear - ST. induction cs as [|c cs IH]; intros st H; simpl; [assumption|]. apply IH. destruct c; simpl.
    - apply (ST st). now right.
    - destruct (t_found st); assumption.
    - assumption. }
  assert (FD : forall cs st, t_found st = true -> t_found (rrun g fmt st cs) = true).
  { clear. induction cs as [|c cs IH]; intros st H; simpl; [assumption|]. apply IH. destruct c; simpl; [|now rewrite H|assumption].
    destruct (search_all_splits g); simpl; [reflexivity|assumption]. }
  assert (RA : forall a b s, rrun g fmt s (a ++ b) = rrun g fmt (rrun g fmt s a) b) by (clear; induction a; simpl; auto).
  assert (R : forall cs, In RSearch cs -> t_splits (rrun g fmt rfresh cs) = f /\ t_found (rrun g fmt rfresh cs) = true).
  { clear - ST G G2 FD RA SF. intros cs HI. apply in_split in HI as (c1 & c2 & ->). rewrite RA. simpl rrun at 1 3. set (s1 := rrun g fmt rfresh c1).
    assert (H1 : t_splits s1 = None \/ t_splits s1 = f) by (apply (G c1 rfresh); now left).
    split; [apply G2, (ST s1 H1)|]. apply FD. simpl. rewrite SF. reflexivity. }
  destruct (R cs HI) as [R1 R2]. fold st in R1, R2.
  split; [apply ST; now right|]. split; [simpl; rewrite R2, R1; reflexivity|]. split; [intros scale; simpl; rewrite R1; destruct f as [[? ?]|]; reflexivity|].
  intros c1 c2 EC H1 scale. destruct (R c1 H1) as [Q1 Q2].
  assert (IM : forall cs s, t_splits s = f -> t_important s = choose_important_splits g f -> t_important (rrun g fmt s cs) = choose_important_splits g f).
  { clear - ST SF. induction cs as [|c cs IH]; intros s H1 H2; simpl; [assumption|]. apply IH.
    - destruct c; simpl; [apply (ST s (or_intror H1))|destruct (t_found s); assumption|assumption].
    - destruct c; simpl; [rewrite SF; assumption| |assumption]. destruct (t_found s); simpl; [now rewrite H1|assumption]. }
  assert (EI : t_important st = choose_important_splits g f).
  { unfold st. rewrite EC, RA. simpl rrun at 1. set (s1 := rrun g fmt rfresh c1) in *. apply IM; simpl; rewrite Q2; simpl; [assumption|now rewrite Q1]. }
  simpl. rewrite R1, EI. reflexivity.
Qed.
Print Assumptions C59_history.
(** In particular the sequence used by the library (regional_effect.py: search, choose, build both trees). *)
Theorem C59_pipeline : forall g fmt f scale, search_all_splits g = Ok f ->
  let st := rrun g fmt rfresh [RSearch; RChoose] in
  snd (rstep g fmt st (RTree true scale)) = (t <- splits_to_tree g fmt f (choose_important_splits g f) true scale ;; Ok (RTreeIs t)).
Proof.
  intros g fmt f scale SF. simpl. rewrite SF. simpl. destruct f as [[r ss]|]; simpl; [reflexivity|].
  destruct (match getn (g_types g) (g_feature g) with Ok Cat => negb (g_split_cat g) | _ => false end); reflexivity.
Qed.
Print Assumptions C59_pipeline.
Example C59_instance : exists f, search_all_splits ex_g = Ok f /\ In RSearch [RTree true None; RSearch; RChoose; RSearch].
Proof. eexists. split; [vm_compute; reflexivity|]. simpl. tauto. Qed.

(** * C60  The level heterogeneity shown is the one used for pruning *)
(** False: get_level_stats weighs by the share of instances n/N, choose_important_splits by (n+1)/(N+2^L). *)
Definition ex_uneven : regions :=
  mkRegions 0 (fun x _ => if Nat.ltb (length x) 2 then Ok BIG_M else Ok (if Nat.ltb (length x) 4 then 0 else if Nat.ltb (length x) 6 then 1 else qz 4))
            (mkData Float64 2 (map (fun k => [qn k; if Nat.ltb k 2 then 0 else 1]) (seq 0 6))) None [Cont; Cont] ["a"; "b"]%string 3 [1]%nat [Cont] 2 2 1 (Q2Qc (1 # 10)) 0 false.
Theorem C60_refuted : exists g fmt r ss t s, wf_regions g /\ named g None /\ search_all_splits g = Ok (Some (r, ss)) /\
  splits_to_tree g fmt (Some (r, ss)) (choose_important_splits g (Some (r, ss))) true None = Ok (Some t) /\ nth_error ss 0 = Some s /\
  rmap this (get_level_stats t 1) = Ok (2 # 3)%Q /\ this (s_wheter s) = (5 # 8)%Q.
Proof.
  exists ex_uneven, ex_fmt. eexists _, _, _, _. split; [split; [reflexivity|exact I]|]. split; [repeat split; simpl; lia|]. split; [vm_compute; reflexivity|].
  split; [vm_compute; reflexivity|]. split; [reflexivity|]. split; vm_compute; reflexivity.
Qed.
Print Assumptions C60_refuted.
(** True at a level whose subregions all have the same size. *)
Theorem C60_partial : forall g fmt scale r ss important (only : bool) t l s n0, wf_regions g -> named g scale ->
  search_all_splits g = Ok (Some (r, ss)) -> chosen g r ss important ->
  splits_to_tree g fmt (Some (r, ss)) important only scale = Ok (Some t) ->
  nth_error (if only then important else ss) l = Some s -> (forall k, In k (s_nof s) -> k = n0) ->
  get_level_stats t (S l) = Ok (s_wheter s).
Proof.
  intros g fmt scale r ss important only t l s n0 W NM SR CH HT HN HE.
  pose proof (nth_error_Some_nth _ _ _ s HN) as [Hl Es].
  pose proof (search_nonempty g r ss W SR) as NE.
  destruct (C58_level_stats g fmt scale r ss important only t (S l) W NM SR CH HT Hl) as (hs & HH & ->). f_equal.
  destruct (used_prefix g r ss important only CH) as (m & E & _). rewrite E in *. rewrite firstn_length in Hl.
  destruct (search_inv g r ss W SR) as (_ & _ & _ & _ & _ & HL & _).
  assert (Es' : nth l ss s = s) by (rewrite <- (firstn_skipn m ss), app_nth1 by (rewrite firstn_length; lia); exact Es).
  pose proof (HL l ltac:(lia) s) as LO. rewrite Es' in LO. destruct LO as [_ L2 L3 L4 _ _ _ _ _].
  assert (RP : forall p, In p (paths (S l)) -> region (rows (g_data g)) (map cond_of ss) p = region (rows (g_data g)) (map cond_of (firstn m ss)) p).
  { intros p Hp. apply paths_len in Hp. apply (region_prefix g ss m (S l)); [rewrite firstn_length; lia|assumption]. }
  assert (EH : hs = s_heter s).
  { pose proof (heterogeneities_length _ _ _ _ _ _ HH) as A1. pose proof (heterogeneities_length _ _ _ _ _ _ L2) as A2.
    apply (Forall2_nth _ _ _ [] 0) in HH as [_ HH]. apply (Forall2_nth _ _ _ [] 0) in L2 as [_ L2].
    apply list_ext with 0; [congruence|]. intros i Hi. rewrite A1 in Hi. specialize (HH i Hi). specialize (L2 i Hi). cbv beta in *.
    rewrite RP in L2 by (now apply nth_In). destruct (g_effect g) as [e|]; simpl in *; [|congruence].
    rewrite (region_effects_prefix g ss m e (S l)) in L2; [congruence|rewrite firstn_length; lia|]. apply (paths_len (S l)), nth_In, Hi. }
  subst hs. rewrite L4. set (X := rows (g_data g)) in *.
  assert (SZ : s_nof s = map (fun p => length (region X (map cond_of (firstn m ss)) p)) (paths (S l))).
  { rewrite L3. unfold sizes. apply map_ext_in. intros p Hp. now rewrite RP. }
  assert (TOT : (2 ^ S l * n0 = length X)%nat).
  { transitivity (sumn (s_nof s)).
    - rewrite <- (paths_length (S l)), <- (map_length (fun p => length (region X (map cond_of (firstn m ss)) p)) (paths (S l))), <- SZ.
      clear - HE. induction (s_nof s) as [|a q IH]; simpl; [reflexivity|]. rewrite (HE a) by now left. simpl in IH. rewrite <- IH; [reflexivity|]. intros; apply HE; now right.
    - rewrite L3. unfold sizes. rewrite <- (map_map (region X (map cond_of ss)) (fun d => length d)). etransitivity; [apply (sumn_lengths (A := list Qc))|].
      apply Permutation_length, region_partition. rewrite map_length. lia. }
  assert (WT : sumn (map (fun a => a + 1)%nat (s_nof s)) = (2 ^ S l * (n0 + 1))%nat).
  { rewrite <- (paths_length (S l)), <- (map_length (fun p => length (region X (map cond_of (firstn m ss)) p)) (paths (S l))), <- SZ.
    clear - HE. induction (s_nof s) as [|a q IH]; simpl; [reflexivity|]. rewrite (HE a) by now left. simpl in IH. rewrite IH; [reflexivity|]. intros; apply HE; now right. }
  unfold weighted. rewrite WT. 
  assert (N0 : (0 < n0)%nat) by (destruct X; [congruence|simpl in TOT; destruct n0; lia]).
  assert (Q0 : qn (2 ^ S l) <> 0) by (apply qn_neq0, two_pow_pos).
  assert (F1 : forall q, In q (combine (paths (S l)) (s_heter s)) -> snd q * (qn (length (region X (map cond_of (firstn m ss)) (fst q))) / qn (length X)) = snd q / qn (2 ^ S l)).
  { intros [p v] Hq. apply in_combine_l in Hq. cbn [fst snd]. assert (EL : length (region X (map cond_of (firstn m ss)) p) = n0) by (apply HE; rewrite SZ; apply in_map_iff; eauto).
    rewrite EL, <- TOT, qn_mul. field. split; first [assumption|apply qn_neq0; lia]. }
  rewrite (map_ext_in _ _ _ F1).
  assert (F2 : forall q, In q (combine (s_nof s) (s_heter s)) -> qn (fst q + 1) / qn (2 ^ S l * (n0 + 1)) * snd q = snd q / qn (2 ^ S l)).
  { intros [k v] Hq. apply in_combine_l in Hq. cbn [fst snd]. rewrite (HE k Hq), qn_mul. field. split; first [assumption|apply qn_neq0; lia]. }
  rewrite (map_ext_in _ _ _ F2). rewrite <- (map_map snd (fun v => v / qn (2 ^ S l)) (combine (paths (S l)) (s_heter s))).
  rewrite <- (map_map snd (fun v => v / qn (2 ^ S l)) (combine (s_nof s) (s_heter s))). do 2 f_equal.
  assert (SND : forall A B (a : list A) (b : list B), length a = length b -> map snd (combine a b) = b).
  { clear. induction a as [|x a IH]; intros [|y b] H; simpl in *; try lia; [reflexivity|]. rewrite IH by lia. reflexivity. }
  pose proof (heterogeneities_length _ _ _ _ _ _ L2) as A2. rewrite !SND; [reflexivity|rewrite SZ, map_length; lia|lia].
Qed.
Print Assumptions C60_partial.
Example C60_instance : exists r ss t s, search_all_splits ex_g = Ok (Some (r, ss)) /\
  splits_to_tree ex_g ex_fmt (Some (r, ss)) [] false None = Ok (Some t) /\ nth_error ss 1 = Some s /\ s_nof s = [2; 2; 2; 2]%nat.
Proof. eexists _, _, _, _. split; [vm_compute; reflexivity|]. split; [vm_compute; reflexivity|]. split; reflexivity. Qed.
