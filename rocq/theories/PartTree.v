(** PartTree: the tree built by splits_to_tree, in closed form. *)
From Verif Require Import Base Numpy Spec NumpyFacts Utils PartSpec Partition PartProofs PartSearch.
Open Scope Qc_scope.
Open Scope list_scope.

(** * Distinct names *)
Lemma append_assoc_ a b c : String.append a (String.append b c) = String.append (String.append a b) c.
Proof. induction a; simpl; congruence. Qed.
Lemma append_length a b : String.length (String.append a b) = (String.length a + String.length b)%nat.
Proof. induction a; simpl; congruence. Qed.
Lemma append_inj a b c d : String.length a = String.length b -> String.append a c = String.append b d -> a = b /\ c = d.
Proof.
  revert b. induction a as [|x a IH]; intros [|y b] L H; simpl in *; try discriminate; [now split|].
  injection H as -> H. injection L as L. destruct (IH b L H) as [-> ->]. auto.
Qed.
Lemma label_same_length n t p : String.length (label n t true p) = String.length (label n t false p).
Proof. unfold label. rewrite !append_length. destruct t; reflexivity. Qed.
Lemma label_neq n t p : label n t true p <> label n t false p.
Proof.
  unfold label. intros H. apply append_inj in H as [_ H]; [|reflexivity]. destruct t; simpl in H; discriminate.
Qed.

Definition step_names (sep l1 l2 : string) (ns : list string) : list string :=
  flat_map (fun p => [String.append p (String.append sep l1); String.append p (String.append sep l2)]) ns.
Lemma step_names_length sep l1 l2 ns k : String.length l1 = String.length l2 ->
  (forall n, In n ns -> String.length n = k) ->
  forall n, In n (step_names sep l1 l2 ns) -> String.length n = (k + String.length sep + String.length l1)%nat.
Proof.
  intros E H n Hn. apply in_flat_map in Hn as (p & Hp & Hn). apply H in Hp.
  destruct Hn as [<-|[<-|[]]]; rewrite !append_length; lia.
Qed.
Lemma step_names_NoDup sep l1 l2 ns k : String.length l1 = String.length l2 -> l1 <> l2 ->
  (forall n, In n ns -> String.length n = k) -> NoDup ns -> NoDup (step_names sep l1 l2 ns).
Proof.
  intros E NE H. induction 1 as [|n ns Hn ND IH]; simpl; [constructor|].
  assert (K : forall l, In (String.append n (String.append sep l)) (step_names sep l1 l2 ns) -> False).
  { intros l HI. apply in_flat_map in HI as (p & Hp & HI).
    assert (p = n); [|subst; contradiction].
    assert (Lp : String.length p = String.length n) by (rewrite (H p), (H n); [reflexivity|now left|now right]).
    destruct HI as [HI|[HI|[]]]; apply append_inj in HI as [HI _]; assumption. }
  constructor; [|constructor].
  - intros [HI|HI]; [|now apply K in HI].
    apply append_inj in HI as [_ HI]; [|reflexivity]. apply append_inj in HI as [_ HI]; [|reflexivity]. congruence.
  - intros HI. now apply K in HI.
  - apply IH. intros m Hm. apply H. now right.
Qed.

Section Tree.
Context (g : regions) (fmt : Qc -> string) (scale : option (list (Qc * Qc))) (h0 : Qc) (ss : list split).
Notation X := (rows (g_data g)).
Definition cs := map cond_of ss.
Definition d0 : split := mkSplit 0 0 (0, 0) [] [] Cont [] 0 0 0 0.
Definition sp (l : nat) : split := nth l ss d0.

Definition pos_text (s : split) : string :=
  fmt (match scale with None => s_position s
       | Some l => snd (nth (s_feature s) l (0, 0)) * s_position s + fst (nth (s_feature s) l (0, 0)) end).
Definition lab (s : split) (b : bool) : string := label (nth (s_feature s) (g_names g) ""%string) (s_type s) b (pos_text s).
Definition sep (l : nat) : string := match l with O => " | " | S _ => " and " end.
Fixpoint level_names (l : nat) : list string :=
  match l with
  | O => [nth (g_feature g) (g_names g) ""%string]
  | S l' => step_names (sep l') (lab (sp l') true) (lab (sp l') false) (level_names l')
  end.
Lemma level_names_S l : level_names (S l) = step_names (sep l) (lab (sp l) true) (lab (sp l) false) (level_names l).
Proof. reflexivity. Qed.
Lemma level_names_length l : length (level_names l) = (2 ^ l)%nat.
Proof.
  induction l as [|l IH]; [reflexivity|]. rewrite level_names_S. unfold step_names.
  rewrite (flat_map_pair_length (fun p => String.append p (String.append (sep l) (lab (sp l) true)))
             (fun p => String.append p (String.append (sep l) (lab (sp l) false)))), IH. simpl. lia.
Qed.
Definition name_len (l : nat) : nat := String.length (nth 0 (level_names l) ""%string).
Lemma name_len_eq l n : In n (level_names l) -> String.length n = name_len l.
Proof.
  revert n. induction l as [|l IH]; intros n H.
  - destruct H as [<-|[]]. reflexivity.
  - rewrite level_names_S in H.
    pose proof (step_names_length (sep l) (lab (sp l) true) (lab (sp l) false) (level_names l) (name_len l) (label_same_length _ _ _) IH) as L.
    rewrite (L n H). unfold name_len at 2. rewrite (L (nth 0 (level_names (S l)) ""%string)); [reflexivity|].
    rewrite <- level_names_S. apply nth_In. rewrite level_names_length. simpl. pose proof (Nat.pow_nonzero 2 l). lia.
Qed.
Lemma name_len_S l : (name_len l < name_len (S l))%nat.
Proof.
  pose proof (step_names_length (sep l) (lab (sp l) true) (lab (sp l) false) (level_names l) (name_len l) (label_same_length _ _ _) (name_len_eq l)) as L.
  unfold name_len at 2. rewrite L.
  - destruct l; simpl; lia.
  - rewrite <- level_names_S. apply nth_In. rewrite level_names_length. simpl. pose proof (Nat.pow_nonzero 2 l). lia.
Qed.
Lemma name_len_lt l m : (l < m)%nat -> (name_len l < name_len m)%nat.
Proof. induction 1; [apply name_len_S|]. pose proof (name_len_S m). lia. Qed.
Lemma level_names_NoDup l : NoDup (level_names l).
Proof.
  induction l as [|l IH]; [repeat constructor; simpl; tauto|]. rewrite level_names_S.
  apply step_names_NoDup with (k := name_len l); [apply label_same_length|apply label_neq|apply name_len_eq|assumption].
Qed.

(** * Closed form *)
Definition path (l j : nat) : list bool := nth j (paths l) [].
Definition effect_at (l j : nat) : option Mat :=
  match g_effect g with
  | None => None
  | Some e => Some (match l with
                    | 0%nat | 1%nat => region_effects X e cs (path l j)
                    | _ => region X cs (path l j) end)
  end.
Definition node_at (l j : nat) : node :=
  match l with
  | O => mkNode 0 (nth (g_feature g) (g_names g) ""%string) None 0 h0 1 (length X) X (g_effect g) None
  | S l' => mkNode (2 ^ l - 1 + j) (nth j (level_names l) ""%string) (Some (2 ^ l' - 1 + j / 2)%nat) l
              (s_heter (sp l'))@j (qn (length (region X cs (path l j))) / qn (length X)) (nth j (s_nof (sp l')) 0%nat)
              (region X cs (path l j)) (effect_at l j)
              (Some (s_feature (sp l'), s_type (sp l'), s_position (sp l'), compare (s_type (sp l')) (Nat.even j)))
  end.
Definition level_nodes (l : nat) : list node := map (node_at l) (seq 0 (2 ^ l)).
Fixpoint tree_to (l : nat) : tree :=
  match l with O => level_nodes 0 | S l' => tree_to l' ++ level_nodes (S l') end.

Lemma level_nodes_length l : length (level_nodes l) = (2 ^ l)%nat.
Proof. unfold level_nodes. now rewrite map_length, seq_length. Qed.
Lemma pow_pos l : (0 < 2 ^ l)%nat. Proof. pose proof (Nat.pow_nonzero 2 l). lia. Qed.
Lemma tree_to_length l : length (tree_to l) = (2 ^ S l - 1)%nat.
Proof.
  induction l as [|l IH]; [reflexivity|]. simpl tree_to. rewrite app_length, IH, level_nodes_length. simpl.
  pose proof (pow_pos l). lia.
Qed.
Lemma node_at_level l j : n_level (node_at l j) = l. Proof. destruct l; reflexivity. Qed.
Lemma node_at_name l j : (j < 2 ^ l)%nat -> n_name (node_at l j) = nth j (level_names l) ""%string.
Proof. destruct l; intros H; simpl; [|reflexivity]. simpl in H. destruct j; [reflexivity|lia]. Qed.
Lemma node_at_idx l j : (j < 2 ^ l)%nat -> n_idx (node_at l j) = (2 ^ l - 1 + j)%nat.
Proof. destruct l; intros H; simpl; [|reflexivity]. simpl in H. lia. Qed.
Lemma level_nodes_names l : map n_name (level_nodes l) = level_names l.
Proof.
  apply list_ext with ""%string; rewrite map_length, level_nodes_length; [now rewrite level_names_length|].
  intros i Hi. rewrite nth_map_in with (d := node_at l 0) by now rewrite level_nodes_length.
  unfold level_nodes. rewrite nth_map_in with (d := 0%nat) by now rewrite seq_length. rewrite nth_seq by assumption. now apply node_at_name.
Qed.
Lemma in_level_nodes l n : In n (level_nodes l) <-> exists j, (j < 2 ^ l)%nat /\ n = node_at l j.
Proof.
  unfold level_nodes. rewrite in_map_iff. split; [intros (j & <- & Hj); apply in_seq in Hj; exists j; split; [lia|reflexivity]|].
  intros (j & Hj & ->). exists j. split; [reflexivity|]. apply in_seq. lia.
Qed.
Lemma in_tree_to L n : In n (tree_to L) <-> exists l j, (l <= L)%nat /\ (j < 2 ^ l)%nat /\ n = node_at l j.
Proof.
  induction L as [|L IH].
  - simpl. split.
    + intros [<-|[]]. exists 0%nat, 0%nat. simpl. auto.
    + intros (l & j & Hl & Hj & ->). replace l with 0%nat in * by lia. simpl in Hj. replace j with 0%nat by lia. now left.
  - simpl tree_to. rewrite in_app_iff, IH, in_level_nodes. split.
    + intros [(l & j & Hl & Hj & E)|(j & Hj & E)]; [exists l, j; auto|exists (S L), j; auto].
    + intros (l & j & Hl & Hj & E). destruct (Nat.eq_dec l (S L)) as [->|NE]; [right; exists j; auto|left; exists l, j; repeat split; auto; lia].
Qed.
Lemma NoDup_app_ {A} (l1 l2 : list A) : NoDup l1 -> NoDup l2 -> (forall a, In a l1 -> In a l2 -> False) -> NoDup (l1 ++ l2).
Proof.
  induction 1 as [|a l1 Ha ND IH]; intros N2 D; simpl; [assumption|]. constructor.
  - rewrite in_app_iff. intros [H|H]; [contradiction|]. apply (D a); [now left|assumption].
  - apply IH; [assumption|]. intros b Hb. apply D. now right.
Qed.
Lemma node_name_in l j : (j < 2 ^ l)%nat -> In (n_name (node_at l j)) (level_names l).
Proof. intros Hj. rewrite node_at_name by assumption. apply nth_In. now rewrite level_names_length. Qed.
Lemma tree_to_names L : NoDup (map n_name (tree_to L)).
Proof.
  induction L as [|L IH]; [repeat constructor; simpl; tauto|]. simpl tree_to. rewrite map_app. apply NoDup_app_; [assumption| |].
  - rewrite level_nodes_names. apply level_names_NoDup.
  - intros a Ha Hb. rewrite level_nodes_names in Hb. apply in_map_iff in Ha as (n & <- & Hn). apply in_tree_to in Hn as (l & j & Hl & Hj & ->).
    apply name_len_eq in Hb. pose proof (node_name_in l j Hj) as Hx. apply name_len_eq in Hx. pose proof (name_len_lt l (S L)). lia.
Qed.
Lemma find_NoDup (t : tree) n : NoDup (map n_name t) -> In n t -> get_node t (n_name n) = Some n.
Proof.
  unfold get_node. induction t as [|m t IH]; simpl; intros ND HI; [contradiction|]. inversion ND as [|? ? Hm ND']; subst.
  destruct (String.eqb_spec (n_name m) (n_name n)) as [E|NE].
  - destruct HI as [->|HI]; [reflexivity|]. exfalso. apply Hm. rewrite E. now apply in_map.
  - destruct HI as [->|HI]; [congruence|]. now apply IH.
Qed.
Lemma get_node_app t t' name n : get_node t name = Some n -> get_node (t ++ t') name = Some n.
Proof. unfold get_node. induction t as [|m t IH]; simpl; [discriminate|]. destruct (String.eqb (n_name m) name); auto. Qed.

(** * The loops build the closed form *)
Hypothesis Wal : aligned X (g_effect g).
(** Level [l] has a split with 2^(l+1) heterogeneities and sizes, whose feature has a name (and a scale). *)
Definition good_level (l : nat) : Prop :=
  length (s_heter (sp l)) = (2 ^ S l)%nat /\ length (s_nof (sp l)) = (2 ^ S l)%nat /\
  (s_feature (sp l) < length (g_names g))%nat /\
  match scale with None => True | Some sc => (s_feature (sp l) < length sc)%nat end.

Lemma path_S l j : (j < 2 ^ S l)%nat -> path (S l) j = path l (j / 2) ++ [Nat.even j].
Proof.
  intros H. unfold path. rewrite paths_S. rewrite (flat_map_pair_nth (fun p => p ++ [true]) (fun p => p ++ [false])) with (d := []).
  - destruct (Nat.even j); reflexivity.
  - rewrite paths_length. simpl in H. lia.
Qed.
Lemma div2_lt l j : (j < 2 ^ S l)%nat -> (j / 2 < 2 ^ l)%nat.
Proof. intros H. apply Nat.div_lt_upper_bound; [lia|]. simpl in H. lia. Qed.
Lemma path_length l j : (j < 2 ^ l)%nat -> length (path l j) = l.
Proof. intros H. apply paths_len with (n := l). apply nth_In. now rewrite paths_length. Qed.
Lemma cs_split l : (l < length ss)%nat -> firstn (S l) cs = firstn l cs ++ [cond_of (sp l)].
Proof.
  intros H. unfold cs. rewrite !firstn_map. unfold sp. rewrite <- (firstn_skipn l ss) at 1.
  rewrite firstn_app, firstn_firstn. replace (Nat.min (S l) l) with l by lia. rewrite map_app. f_equal.
  rewrite firstn_length. replace (S l - Nat.min l (length ss))%nat with 1%nat by lia.
  destruct (skipn l ss) as [|s r] eqn:E.
  - apply (f_equal (@length _)) in E. rewrite skipn_length in E. simpl in E. lia.
  - simpl. do 2 f_equal. rewrite <- (firstn_skipn l ss), app_nth2; rewrite firstn_length; [|lia].
    replace (l - Nat.min l (length ss))%nat with 0%nat by lia. now rewrite E.
Qed.
Lemma region_child l j : (l < length ss)%nat -> (j < 2 ^ S l)%nat ->
  region X cs (path (S l) j) = filter (fun r => Bool.eqb (satisfies (cond_of (sp l)) r) (Nat.even j)) (region X cs (path l (j / 2))).
Proof.
  intros Hl Hj. rewrite <- (region_firstn X cs (path (S l) j) (S l)) by now rewrite path_length.
  rewrite cs_split by assumption. rewrite path_S by assumption. pose proof (div2_lt l j Hj).
  rewrite region_app by (rewrite path_length, firstn_length by assumption; unfold cs; rewrite map_length; lia).
  rewrite region_firstn by now rewrite path_length. reflexivity.
Qed.
Lemma region_effects_child e l j : length e = length X -> (l < length ss)%nat -> (j < 2 ^ S l)%nat ->
  region_effects X e cs (path (S l) j) =
  map snd (filter (fun q => Bool.eqb (satisfies (cond_of (sp l)) (fst q)) (Nat.even j))
             (combine (region X cs (path l (j / 2))) (region_effects X e cs (path l (j / 2))))).
Proof.
  intros He Hl Hj. rewrite <- (region_effects_firstn X e cs (path (S l) j) (S l)) by now rewrite path_length.
  rewrite cs_split by assumption. rewrite path_S by assumption. pose proof (div2_lt l j Hj).
  rewrite region_effects_app; [|assumption|rewrite path_length, firstn_length by assumption; unfold cs; rewrite map_length; lia].
  rewrite region_firstn, region_effects_firstn by now rewrite path_length. reflexivity.
Qed.

Definition pe_at (l : nat) : list (option Mat) :=
  match l with O => [g_effect g] | _ => map Some (map (region X cs) (paths l)) end.
Lemma pow_S_double l : (2 ^ S l = 2 * 2 ^ l)%nat. Proof. reflexivity. Qed.
Lemma add_level_step l j : (l < length ss)%nat -> good_level l -> (j < 2 ^ S l)%nat ->
  add_level_node g fmt scale (length X) l (sp l) (level_names l) (map (region X cs) (paths l)) (pe_at l) j
     (tree_to l ++ map (node_at (S l)) (seq 0 j), map (fun j => nth j (level_names (S l)) ""%string) (seq 0 j),
      map (fun j => region X cs (path (S l) j)) (seq 0 j), map (effect_at (S l)) (seq 0 j)) =
  Ok (tree_to l ++ map (node_at (S l)) (seq 0 (S j)), map (fun j => nth j (level_names (S l)) ""%string) (seq 0 (S j)),
      map (fun j => region X cs (path (S l) j)) (seq 0 (S j)), map (effect_at (S l)) (seq 0 (S j))).
Proof.
  intros Hl (G1 & G2 & G3 & G4) Hj. pose proof (div2_lt l j Hj) as Hd. unfold add_level_node.
  rewrite (getn_ok _ _ ""%string) by now rewrite level_names_length. unfold bind at 1.
  rewrite (getn_ok (A:=Mat) _ _ []) by now rewrite map_length, paths_length. unfold bind at 1.
  assert (EP : exists pef, getn (pe_at l) (j / 2) = Ok pef /\
     (match g_effect g with
      | Some _ => r <- split_dataset (region X cs (path l (j / 2))) pef (s_feature (sp l)) (s_position (sp l)) (s_type (sp l)) ;; Ok (Some (fst r), Some (snd r))
      | None => Ok (None, None)
      end = Ok (if Nat.even j then (effect_at (S l) j, match g_effect g with None => None | Some e => Some (match l with O => region_effects X e cs (path 1 (j + 1)) | _ => region X cs (path (S l) (j + 1)) end) end)
                else (match g_effect g with None => None | Some e => Some (match l with O => region_effects X e cs (path 1 (j - 1)) | _ => region X cs (path (S l) (j - 1)) end) end, effect_at (S l) j)))).
  { assert (EB : forall b, Nat.even j = b -> (if b then Nat.even (j + 1) = false /\ ((j + 1) / 2 = j / 2)%nat /\ (j + 1 < 2 ^ S l)%nat
                                      else Nat.even (j - 1) = true /\ ((j - 1) / 2 = j / 2)%nat /\ (j - 1 < 2 ^ S l)%nat)).
    { intros [|] E.
      - apply Nat.even_spec in E as [m ->]. split; [rewrite Nat.add_1_r, Nat.even_succ, Nat.odd_mul; reflexivity|].
        split; [rewrite (Nat.mul_comm 2 m), Nat.div_add_l, Nat.div_mul by lia; simpl; lia|]. rewrite pow_S_double in *. lia.
      - assert (O : Nat.odd j = true) by (unfold Nat.odd; now rewrite E). apply Nat.odd_spec in O as [m ->].
        replace (2 * m + 1 - 1)%nat with (2 * m)%nat by lia.
        split; [rewrite Nat.even_mul; reflexivity|].
        split; [rewrite (Nat.mul_comm 2 m), Nat.div_add_l, Nat.div_mul by lia; simpl; lia|]. lia. }
    specialize (EB _ eq_refl).
    destruct l as [|l'].
    - exists (g_effect g). simpl in Hj. assert (Hj2 : (j / 2 = 0)%nat) by (apply Nat.div_small; lia).
      split; [rewrite Hj2; reflexivity|]. unfold effect_at.
      destruct (g_effect g) as [e|] eqn:EE; [|destruct (Nat.even j); reflexivity].
      simpl in Wal. rewrite Hj2. change (path 0 0) with (@nil bool). rewrite region_nil.
      rewrite split_dataset_eff by assumption. unfold bind. cbn [fst snd].
      assert (C : forall k, (k < 2)%nat -> region_effects X e cs (path 1 k) =
         map snd (filter (fun q => Bool.eqb (satisfies (cond_of (sp 0)) (fst q)) (Nat.even k)) (combine X e))).
      { intros k Hk. rewrite region_effects_child by (assumption || (simpl; lia)).
        replace (k / 2)%nat with 0%nat by (symmetry; apply Nat.div_small; lia). change (path 0 0) with (@nil bool).
        now rewrite region_nil, region_effects_nil. }
      destruct (Nat.even j) eqn:Ej.
      + destruct EB as (E1 & E2 & E3). rewrite (C j), (C (j + 1)%nat), Ej, E1 by (simpl in E3; lia). reflexivity.
      + destruct EB as (E1 & E2 & E3). rewrite (C j), (C (j - 1)%nat), Ej, E1 by (simpl in E3; lia). reflexivity.
    - exists (Some (region X cs (path (S l') (j / 2)))). split.
      + unfold pe_at. rewrite (getn_ok _ _ None) by now rewrite !map_length, paths_length. f_equal.
        rewrite nth_map_in with (d := []) by now rewrite map_length, paths_length. f_equal.
        rewrite nth_map_in with (d := []) by now rewrite paths_length. reflexivity.
      + unfold effect_at. destruct (g_effect g) as [e|] eqn:EE; [|destruct (Nat.even j); reflexivity].
        rewrite split_dataset_eff by reflexivity. unfold bind. cbn [fst snd].
        rewrite !(combine_self_snd (fun r => Bool.eqb (satisfies (s_feature (sp (S l')), s_type (sp (S l')), s_position (sp (S l'))) r) _)).
        destruct (Nat.even j) eqn:Ej.
        * destruct EB as (E1 & E2 & E3). rewrite (region_child (S l') j), (region_child (S l') (j + 1)), Ej, E1, E2 by assumption. reflexivity.
        * destruct EB as (E1 & E2 & E3). rewrite (region_child (S l') j), (region_child (S l') (j - 1)), Ej, E1, E2 by assumption. reflexivity. }
  destruct EP as (pef & EP1 & EP2). rewrite EP1. unfold bind at 1.
  rewrite (getn_ok _ _ ""%string) by assumption. unfold bind at 1.
  assert (ES : scaled_position scale (s_feature (sp l)) (s_position (sp l)) =
     Ok (match scale with None => s_position (sp l) | Some l0 => snd (nth (s_feature (sp l)) l0 (0, 0)) * s_position (sp l) + fst (nth (s_feature (sp l)) l0 (0, 0)) end)).
  { unfold scaled_position. destruct scale as [sc|]; [|reflexivity]. rewrite (getn_ok _ _ (0, 0)) by assumption. reflexivity. }
  rewrite ES. unfold bind at 1. rewrite nth_map_in with (d := []) by now rewrite paths_length.
  change (nth (j / 2) (paths l) []) with (path l (j / 2)).
  rewrite split_dataset_data. unfold bind at 1. rewrite EP2. unfold bind at 1.
  rewrite (getn_ok _ _ 0) by congruence. unfold bind at 1. rewrite (getn_ok _ _ 0%nat) by congruence. unfold bind at 1.
  cbv zeta. pose proof (region_child l j Hl Hj) as ED.
  assert (Ename : String.append (nth (j / 2) (level_names l) ""%string) (String.append (if Nat.eqb (length (s_nof (sp l))) 2 then " | " else " and ")
      (label (nth (s_feature (sp l)) (g_names g) ""%string) (s_type (sp l)) (Nat.even j)
         (fmt match scale with None => s_position (sp l) | Some l0 => snd (nth (s_feature (sp l)) l0 (0, 0)) * s_position (sp l) + fst (nth (s_feature (sp l)) l0 (0, 0)) end)))
      = nth j (level_names (S l)) ""%string).
  { rewrite level_names_S. unfold step_names.
    rewrite (flat_map_pair_nth (fun p => String.append p (String.append (sep l) (lab (sp l) true)))
             (fun p => String.append p (String.append (sep l) (lab (sp l) false)))) with (d := ""%string)
      by (rewrite level_names_length; rewrite pow_S_double in Hj; assumption).
    assert (Esep : (if Nat.eqb (length (s_nof (sp l))) 2 then " | "%string else " and "%string) = sep l).
    { rewrite G2. destruct l as [|l']; [reflexivity|]. rewrite !pow_S_double. pose proof (pow_pos l').
      destruct (Nat.eqb_spec (2 * (2 * 2 ^ l')) 2); [lia|reflexivity]. }
    rewrite Esep. destruct (Nat.even j); reflexivity. }
  rewrite Ename. unfold add_node.
  assert (Hpn : nth (j / 2) (level_names l) ""%string = n_name (node_at l (j / 2))) by now rewrite node_at_name.
  rewrite Hpn.
  rewrite (get_node_app (tree_to l) _ _ (node_at l (j / 2))).
  2:{ apply find_NoDup; [apply tree_to_names|]. apply in_tree_to. exists l, (j / 2)%nat. auto. }
  unfold bind at 1. unfold bind at 1.
  rewrite seq_S, !map_app. cbn [map]. rewrite Nat.add_0_l.
  match goal with |- context [mkNode ?a1 ?a2 ?a3 ?a4 ?a5 ?a6 ?a7 ?a8 ?a9 ?a10] =>
    replace (mkNode a1 a2 a3 a4 a5 a6 a7 a8 a9 a10) with (node_at (S l) j) end.
  2:{ unfold node_at at 1. rewrite node_at_idx by assumption. rewrite ED. clear ED.
      assert (EL : length (tree_to l ++ map (node_at (S l)) (seq 0 j)) = (2 ^ S l - 1 + j)%nat)
        by now rewrite app_length, tree_to_length, map_length, seq_length.
      rewrite EL, Nat.add_1_r. clear. unfold cond_of. destruct (Nat.even j); reflexivity. }
  rewrite <- app_assoc. rewrite ED. unfold cond_of. clear. destruct (Nat.even j); reflexivity.
Qed.

Lemma foldM_seq {S} (f : nat -> S -> res S) (inv : nat -> S) n a :
  (forall j, (a <= j < a + n)%nat -> f j (inv j) = Ok (inv (1 + j)%nat)) -> foldM f (seq a n) (inv a) = Ok (inv (a + n)%nat).
Proof.
  revert a. induction n as [|n IH]; intros a H; simpl; [now rewrite Nat.add_0_r|].
  rewrite H by lia. unfold bind. simpl. rewrite IH; [f_equal; f_equal; lia|]. intros j Hj. apply H. lia.
Qed.

Lemma add_levels_ok n l : (l + n = length ss)%nat -> (forall k, (l <= k < length ss)%nat -> good_level k) ->
  add_levels g fmt scale (length X) l (skipn l ss) (tree_to l) (level_names l) (map (region X cs) (paths l)) (pe_at l) = Ok (tree_to (length ss)).
Proof.
  revert l. induction n as [|n IH]; intros l Hn HG.
  - rewrite skipn_all2 by lia. simpl. f_equal. f_equal. lia.
  - assert (Hl : (l < length ss)%nat) by lia.
    assert (E : skipn l ss = sp l :: skipn (S l) ss).
    { unfold sp. clear -Hl. revert l Hl. induction ss as [|s r IHr]; intros l Hl; [simpl in Hl; lia|]. destruct l; [reflexivity|]. simpl in Hl |- *. apply IHr. lia. }
    rewrite E. cbn [add_levels].
    pose proof (HG l ltac:(lia)) as G. pose proof G as (G1 & G2 & _). rewrite G2.
    pose (inv := fun j => (tree_to l ++ map (node_at (S l)) (seq 0 j), map (fun j => nth j (level_names (S l)) ""%string) (seq 0 j),
      map (fun j => region X cs (path (S l) j)) (seq 0 j), map (effect_at (S l)) (seq 0 j)) : level_state).
    pose proof (foldM_seq (add_level_node g fmt scale (length X) l (sp l) (level_names l) (map (region X cs) (paths l)) (pe_at l)) inv (2 ^ S l) 0) as F.
    assert (I0 : inv 0%nat = ((tree_to l, [], [], []) : level_state)) by (unfold inv; simpl; now rewrite app_nil_r).
    rewrite I0 in F.
    unfold bind.
    match goal with |- context [foldM ?a ?b ?c] => change (foldM a b c) with (foldM (S:=level_state) a b ((tree_to l, [], [], []) : level_state)) end.
    rewrite F by (intros j Hj; apply add_level_step; [assumption|assumption|lia]).
    unfold inv. rewrite Nat.add_0_l.
    assert (E1 : map (fun j => nth j (level_names (S l)) ""%string) (seq 0 (2 ^ S l)) = level_names (S l)).
    { rewrite <- level_names_length. apply map_nth_seq. }
    assert (E2 : map (fun j => region X cs (path (S l) j)) (seq 0 (2 ^ S l)) = map (region X cs) (paths (S l))).
    { unfold path. rewrite <- (map_map (fun j => nth j (paths (S l)) []) (region X cs)). f_equal. rewrite <- paths_length. apply map_nth_seq. }
    rewrite E1, E2. change (tree_to l ++ map (node_at (S l)) (seq 0 (2 ^ S l))) with (tree_to (S l)).
    change (map Some (map (region X cs) (paths (S l)))) with (pe_at (S l)).
    apply IH; [lia|]. intros k Hk. apply HG. lia.
Qed.
End Tree.

Lemma splits_to_tree_ok g fmt scale r ss important (only : bool) : wf_regions g -> r_nof r = length (rows (g_data g)) ->
  (g_feature g < length (g_names g))%nat ->
  let use := if only then important else ss in
  (forall k, (k < length use)%nat -> good_level g scale use k) ->
  splits_to_tree g fmt (Some (r, ss)) important only scale = Ok (Some (tree_to g fmt scale (r_heter r) use (length use))).
Proof.
  intros [W1 W2] HN Hf use HG. unfold splits_to_tree. rewrite (getn_ok _ _ ""%string) by assumption. unfold bind at 1.
  unfold add_node. unfold bind at 1. unfold bind at 1. fold use. rewrite HN.
  pose proof (add_levels_ok g fmt scale (r_heter r) use W2 (length use) 0 eq_refl) as A.
  assert (A' := A (fun k Hk => HG k (proj2 Hk))). clear A. simpl skipn in A'. cbn [paths map] in A'. rewrite region_nil in A'.
  cbn [app length]. 
  change (tree_to g fmt scale (r_heter r) use 0) with [mkNode 0 (nth (g_feature g) (g_names g) ""%string) None 0 (r_heter r) 1 (length (rows (g_data g))) (rows (g_data g)) (g_effect g) None] in A'.
  change (level_names g fmt scale use 0) with [nth (g_feature g) (g_names g) ""%string] in A'.
  exact (f_equal (fun x => bind x (fun t' => Ok (Some t'))) A').
Qed.
