(** ReportProofs: facts about show_full_tree, show_level_stats and describe_subregions. *)
From Verif Require Import Base Numpy Spec NumpyFacts Utils UtilsProofs Helpers Binning GlobalALE ALEState GlobalPDP GlobalShap PartSpec Partition PartProofs PartSearch PartTree PartFacts PartNodes Regional RegProofs RegNodes Report.
Open Scope Qc_scope.
Open Scope list_scope.

Section Shown.
Context (g : regions) (fmt : Qc -> string) (scale : option (list (Qc * Qc))) (h0 : Qc) (ss : list split).
Notation nd := (node_at g fmt scale h0 ss).
Notation tr := (tree_to g fmt scale h0 ss).

(** The lines of the subtree of node (l, j), n levels deep. *)
Fixpoint pre (n l j : nat) : list printed :=
  line_of (nd l j) :: match n with O => [] | S n' => pre n' (S l) (2 * j) ++ pre n' (S l) (2 * j + 1) end.
Lemma show_pre L n : forall l j k, (l + n = L)%nat -> (j < 2 ^ l)%nat -> (n < k)%nat -> show_below k (tr L) (nd l j) = Ok (pre n l j).
Proof.
  induction n as [|n IH]; intros l j k HL Hj Hk; (destruct k as [|k]; [lia|]); cbn [show_below]; rewrite children_of by lia.
  - destruct (Nat.ltb_spec l L); [lia|]. reflexivity.
  - destruct (Nat.ltb_spec l L); [|lia]. cbn [mapM]. rewrite (IH (S l) (2 * j)%nat k), (IH (S l) (2 * j + 1)%nat k) by (simpl; lia). simpl. now rewrite app_nil_r.
Qed.
Lemma pre_length n : forall l j, length (pre n l j) = (2 ^ S n - 1)%nat.
Proof.
  induction n as [|n IH]; intros l j; [reflexivity|]. cbn [pre length]. rewrite app_length, !IH. pose proof (two_pow_pos (S n)). change (2 ^ S (S n))%nat with (2 * 2 ^ S n)%nat. lia.
Qed.
Lemma pre_in n : forall l j m i, (m <= n)%nat -> (i < 2 ^ m)%nat -> In (line_of (nd (l + m) (j * 2 ^ m + i))) (pre n l j).
Proof.
  induction n as [|n IH]; intros l j m i Hm Hi.
  - assert (m = 0%nat) by lia. subst m. simpl in Hi. assert (i = 0%nat) by lia. subst i. left. f_equal. f_equal; simpl; lia.
  - destruct m as [|m]; [left; simpl in Hi; f_equal; f_equal; simpl; lia|]. right. apply in_or_app. change (2 ^ S m)%nat with (2 * 2 ^ m)%nat in *.
    destruct (Nat.lt_ge_cases i (2 ^ m)) as [Hi2|Hi2].
    + left. replace (l + S m)%nat with (S l + m)%nat by lia. replace (j * (2 * 2 ^ m) + i)%nat with (2 * j * 2 ^ m + i)%nat by lia. apply IH; lia.
    + right. replace (l + S m)%nat with (S l + m)%nat by lia. replace (j * (2 * 2 ^ m) + i)%nat with ((2 * j + 1) * 2 ^ m + (i - 2 ^ m))%nat by lia. apply IH; lia.
Qed.
Lemma lines_NoDup L : NoDup (map line_of (tr L)).
Proof. apply (NoDup_map_inv pr_name). rewrite map_map. exact (tree_to_names g fmt scale h0 ss L). Qed.
Lemma pre_perm L : Permutation (pre L 0 0) (map line_of (tr L)).
Proof.
  symmetry. apply NoDup_Permutation_bis; [apply lines_NoDup|rewrite map_length, tree_to_length, pre_length; lia|].
  intros q Hq. apply in_map_iff in Hq as (n & <- & Hn). apply in_tree_to in Hn as (l & j & Hl & Hj & ->). exact (pre_in L 0 0 l j Hl Hj).
Qed.

(** ** Reading the indentation *)
Definition reads (par : nat -> option nat) (ls : list printed) : Prop :=
  forall i a, (0 < i)%nat -> nth_error ls i = Some a ->
  exists k b, (k < i)%nat /\ nth_error ls k = Some b /\ (pr_indent b < pr_indent a)%nat /\
    (forall m e, (k < m < i)%nat -> nth_error ls m = Some e -> (pr_indent a <= pr_indent e)%nat) /\ par (pr_idx a) = Some (pr_idx b).
Lemma reads_cons par h (ls : list (list printed)) :
  (forall l, In l ls -> reads par l) ->
  (forall l, In l ls -> exists a l', l = a :: l' /\ par (pr_idx a) = Some (pr_idx h) /\ pr_indent a = (pr_indent h + 2)%nat /\ forall e, In e l' -> (pr_indent a < pr_indent e)%nat) ->
  reads par (h :: concat ls).
Proof.
  intros HR HH. induction ls as [|l ls IH] using rev_ind.
  - intros i a Hi Ha. destruct i as [|[|i]]; simpl in Ha; try discriminate. lia.
  - rewrite concat_app. simpl. rewrite app_nil_r. set (A := concat ls) in *.
    assert (HA : reads par (h :: A)) by (apply IH; intros; [apply HR|apply HH]; apply in_or_app; now left).
    assert (IA : forall e, In e A -> (pr_indent h + 2 <= pr_indent e)%nat).
    { intros e He. apply in_concat in He as (l' & Hl' & He). destruct (HH l') as (a & l'' & -> & _ & E & F); [apply in_or_app; now left|]. destruct He as [<-|He]; [lia|]. specialize (F e He). lia. }
    assert (HL : reads par l) by (apply HR, in_or_app; right; now left).
    destruct (HH l) as (a0 & l0 & El & Ep & Ei & Fl); [apply in_or_app; right; now left|].
    intros i a Hi Ha. change (h :: A ++ l) with ((h :: A) ++ l) in *. destruct (Nat.lt_ge_cases i (length (h :: A))) as [Hlt|Hge].
    + rewrite nth_error_app1 in Ha by assumption. destruct (HA i a Hi Ha) as (k & b & Hk & Hb & HI & HM & HP). exists k, b. split; [assumption|].
      split; [rewrite nth_error_app1 by lia; assumption|]. split; [assumption|]. split; [|assumption]. intros m e Hm He. rewrite nth_error_app1 in He by lia. eauto.
    + rewrite nth_error_app2 in Ha by assumption. set (p := length (h :: A)) in *. destruct (Nat.eq_dec i p) as [->|Hne].
      * rewrite Nat.sub_diag, El in Ha. injection Ha as <-. exists 0%nat, h. split; [lia|]. split; [reflexivity|]. split; [lia|]. split; [|exact Ep].
        intros m e Hm He. rewrite nth_error_app1 in He by (fold p; lia). destruct m as [|m]; [lia|]. simpl in He. apply nth_error_In in He. specialize (IA e He). lia.
      * destruct (HL (i - p)%nat a ltac:(lia) Ha) as (k & b & Hk & Hb & HI & HM & HP). exists (p + k)%nat, b. split; [lia|].
        split; [rewrite nth_error_app2 by (fold p; lia); fold p; replace (p + k - p)%nat with k by lia; assumption|]. split; [assumption|]. split; [|assumption].
        intros m e Hm He. rewrite nth_error_app2 in He by (fold p; lia). fold p in He. apply (HM (m - p)%nat e); [lia|assumption].
Qed.
Lemma pre_indent n : forall l j e, In e (tl (pre n l j)) -> (l * 2 < pr_indent e)%nat.
Proof.
  induction n as [|n IH]; intros l j e He; [destruct He|]. cbn [pre tl] in He. apply in_app_or in He.
  assert (G : forall q, In e (pre n (S l) q) -> (l * 2 < pr_indent e)%nat).
  { intros q Hq. specialize (IH (S l) q e). destruct n; cbn [pre tl] in *; (destruct Hq as [<-|Hq]; [cbn [line_of pr_indent]; rewrite node_at_level; lia|]; specialize (IH Hq); lia). }
  destruct He as [He|He]; exact (G _ He).
Qed.
Definition parent_in (t : tree) (i : nat) : option nat := match nth_error t i with Some n => n_parent n | None => None end.
Lemma parent_nd L l j b : (S l <= L)%nat -> (j < 2 ^ l)%nat -> (b <= 1)%nat -> parent_in (tr L) (pr_idx (line_of (nd (S l) (2 * j + b)))) = Some (pr_idx (line_of (nd l j))).
Proof.
  intros HL Hj Hb. cbn [line_of pr_idx]. rewrite !node_at_idx by (simpl; lia). unfold parent_in. rewrite tree_nth by (simpl; lia).
  change (n_parent (nd (S l) (2 * j + b))) with (Some (2 ^ l - 1 + (2 * j + b) / 2)%nat). do 2 f_equal. rewrite Nat.mul_comm, Nat.div_add_l by lia. rewrite Nat.div_small by lia. lia.
Qed.
Lemma pre_reads L n : forall l j, (l + n = L)%nat -> (j < 2 ^ l)%nat -> reads (parent_in (tr L)) (pre n l j).
Proof.
  induction n as [|n IH]; intros l j HL Hj.
  - intros i a Hi Ha. destruct i as [|[|i]]; simpl in Ha; try discriminate. lia.
  - cbn [pre]. replace (pre n (S l) (2 * j) ++ pre n (S l) (2 * j + 1)) with (concat [pre n (S l) (2 * j); pre n (S l) (2 * j + 1)]) by (simpl; now rewrite app_nil_r).
    assert (HD : forall q, exists l', pre n (S l) q = line_of (nd (S l) q) :: l' /\ l' = tl (pre n (S l) q)) by (intros q; destruct n; eexists; split; reflexivity).
    apply reads_cons.
    + intros ls [<-|[<-|[]]]; apply IH; simpl; lia.
    + intros ls [<-|[<-|[]]].
      * destruct (HD (2 * j)%nat) as (l' & E & E'). eexists _, l'. split; [exact E|]. split; [rewrite <- (Nat.add_0_r (2 * j)) at 1; apply parent_nd; lia|].
        cbn [line_of pr_indent]. rewrite !node_at_level. split; [lia|]. intros e He. rewrite E' in He. apply pre_indent in He. lia.
      * destruct (HD (2 * j + 1)%nat) as (l' & E & E'). eexists _, l'. split; [exact E|]. split; [apply parent_nd; lia|].
        cbn [line_of pr_indent]. rewrite !node_at_level. split; [lia|]. intros e He. rewrite E' in He. apply pre_indent in He. lia.
Qed.

(** ** Levels *)
Lemma max_level_tree L : max_level (tr L) = Ok L.
Proof.
  unfold max_level. destruct (tr L) as [|a t] eqn:E; [pose proof (tree_to_length g fmt scale h0 ss L) as H; rewrite E in H; pose proof (two_pow_pos (S L)); simpl in H; simpl in *; lia|].
  f_equal. rewrite <- E. clear a t E.
  assert (B : forall l m, (forall n, In n l -> (n <= m)%nat) -> (fold_right Nat.max 0 l <= m)%nat) by (induction l as [|q l IH]; intros m H; simpl; [lia|]; pose proof (H q (or_introl eq_refl)); pose proof (IH m (fun n Hn => H n (or_intror Hn))); lia).
  assert (C : forall l m, In m l -> (m <= fold_right Nat.max 0 l)%nat) by (induction l as [|q l IH]; intros m H; simpl; [destruct H|]; destruct H as [->|H]; [lia|]; specialize (IH m H); lia).
  apply Nat.le_antisymm.
  - apply B. intros m Hm. apply in_map_iff in Hm as (n & <- & Hn). apply in_tree_to in Hn as (l & j & Hl & Hj & ->). now rewrite node_at_level.
  - apply C. apply in_map_iff. exists (nd L 0). split; [apply node_at_level|]. apply in_tree_to. exists L, 0%nat. pose proof (two_pow_pos L). split; [lia|split; [lia|reflexivity]].
Qed.
End Shown.

(** ** show_level_stats *)
Definition stat_line (H : nat -> Qc) (lev : nat) : level_line :=
  mkLL lev (H lev) (match lev with O => None | S k => Some (H k - H lev, if H k =? 0 then None else Some (Q2Qc 100 * (H k - H lev) / H k)) end).
Lemma stats_from python t H n : forall a prev, (a <> 0%nat -> prev = H (a - 1)%nat) ->
  (forall lev, (a <= lev < a + n)%nat -> get_level_stats t lev = Ok (H lev)) ->
  (python = true -> forall k, (a <= S k < a + n)%nat -> H k <> 0) ->
  stats_loop python t prev (seq a n) = Ok (map (stat_line H) (seq a n)).
Proof.
  induction n as [|n IH]; intros a prev HP HS HN; [reflexivity|]. cbn [seq stats_loop map]. rewrite (HS a) by lia. cbn [bind].
  assert (R : stats_loop python t (H a) (seq (S a) n) = Ok (map (stat_line H) (seq (S a) n))).
  { apply IH; [intros _; f_equal; lia|intros; apply HS; lia|intros; apply HN; [assumption|lia]]. }
  destruct a as [|a].
  - cbn [bind]. rewrite R. reflexivity.
  - rewrite (HP ltac:(lia)). simpl (S a - 1)%nat. rewrite Nat.sub_0_r. unfold quotient. unfold stat_line at 1. destruct (H a =? 0) eqn:E.
    + destruct python; [exfalso; apply (HN eq_refl a ltac:(lia)); revert E; destruct (Qceqb_spec (H a) 0); [tauto|discriminate]|]. cbn [bind]. rewrite R. reflexivity.
    + cbn [bind]. rewrite R. reflexivity.
Qed.
Lemma stats_zero t H n : forall a prev, (a <> 0%nat -> prev = H (a - 1)%nat) ->
  (forall lev, (a <= lev < a + n)%nat -> get_level_stats t lev = Ok (H lev)) ->
  (exists k, (a <= S k < a + n)%nat /\ H k = 0) -> stats_loop true t prev (seq a n) = Raise ZeroDivisionError.
Proof.
  induction n as [|n IH]; intros a prev HP HS (k & Hk & E); [lia|]. cbn [seq stats_loop]. rewrite (HS a) by lia. cbn [bind].
  destruct (Nat.eq_dec (S k) a) as [<-|NE].
  - rewrite (HP ltac:(lia)). simpl (S k - 1)%nat. rewrite Nat.sub_0_r, E. reflexivity.
  - assert (R : stats_loop true t (H a) (seq (S a) n) = Raise ZeroDivisionError).
    { apply IH; [intros _; f_equal; lia|intros; apply HS; lia|exists k; split; [lia|assumption]]. }
    destruct a as [|a]; cbn [bind]; [now rewrite R|]. unfold quotient. destruct (prev =? 0); cbn [bind]; [reflexivity|now rewrite R].
Qed.

(** ** The heterogeneity of a level *)
(** The heterogeneities of the subregions of a level, weighted by their share of the instances. *)
Definition level_heter (h : heter_func) (X : Mat) (E : option Mat) (cs : list cond) (l : nat) (v : Qc) : Prop :=
  exists hs, heterogeneities h X E cs (paths l) hs /\
    v = sumq (map (fun q => qn (length (region X cs (fst q))) / qn (length X) * snd q) (combine (paths l) hs)).
Lemma level_heter_unique h X E cs l v w : level_heter h X E cs l v -> level_heter h X E cs l w -> v = w.
Proof.
  intros (hs & H & ->) (hs' & H' & ->). do 3 f_equal. unfold heterogeneities in *. revert hs' H'. induction H as [|p a ps hs E0 H IH]; intros hs' H'; inversion H'; subst; [reflexivity|]. f_equal; [congruence|]. now apply IH.
Qed.

Section Levels.
Context (g : regions) (fmt : Qc -> string) (scale : option (list (Qc * Qc))) (r : root) (ss important : list split) (only : bool).
Hypothesis W : wf_regions g.
Hypothesis SR : search_all_splits g = Ok (Some (r, ss)).
Hypothesis CH : important = choose_important_splits g (Some (r, ss)).
Notation used := (if only then important else ss).
Notation X := (rows (g_data g)).
Notation tr := (tree_to g fmt scale (r_heter r) used).
Notation nd := (node_at g fmt scale (r_heter r) used).
Notation cs := (map cond_of used).

Definition stat (l : nat) : Qc := sumq (map (fun n => n_weight n * n_heter n) (level_nodes g fmt scale (r_heter r) used l)).
Lemma stat_heter l : (l <= length used)%nat -> level_heter (g_heter g) X (g_effect g) cs l (stat l).
Proof.
  intros Hl. pose proof (search_nonempty g r ss W SR) as NE. destruct (used_prefix g r ss important only (or_intror CH)) as (m & E & _).
  assert (PS : paths l = map (fun j => path l j) (seq 0 (2 ^ l))) by (unfold path; rewrite <- paths_length; symmetry; apply map_nth_seq).
  exists (map (fun j => n_heter (nd l j)) (seq 0 (2 ^ l))). split.
  - unfold heterogeneities. rewrite PS. assert (G : forall js, (forall j, In j js -> (j < 2 ^ l)%nat) ->
      Forall2 (fun p v => g_heter g (region X cs p) (option_map (fun e => region_effects X e cs p) (g_effect g)) = Ok v) (map (fun j => path l j) js) (map (fun j => n_heter (nd l j)) js)).
    { induction js as [|j js IH]; intros HJ; simpl; constructor; [|apply IH; intros; apply HJ; now right].
      specialize (HJ j (or_introl eq_refl)). rewrite E in *. pose proof (node_heter g fmt scale r ss W SR m l j Hl HJ) as HH. rewrite node_data in HH by assumption. exact HH. }
    apply G. intros j Hj. apply in_seq in Hj. lia.
  - unfold stat, level_nodes. rewrite PS, combine_maps, !map_map. f_equal. apply map_ext_in. intros j Hj. apply in_seq in Hj. simpl.
    rewrite node_weight by (assumption || lia). rewrite node_data by lia. reflexivity.
Qed.
Lemma level_stats l : (l <= length used)%nat -> get_level_stats (tr (length used)) l = Ok (stat l).
Proof.
  intros Hl. unfold get_level_stats. rewrite tree_root. unfold bind. f_equal. rewrite level_of_tree. destruct (Nat.leb_spec l (length used)); [|lia].
  unfold stat. f_equal. apply map_ext. intros. apply Qcmult_comm.
Qed.
(** With non-negative heterogeneities an important split is never preceded by a level of heterogeneity zero. *)
Lemma stat_nonzero l : only = true -> (forall Z E v, g_heter g Z E = Ok v -> 0 <= v) -> (1 <= g_min_points g)%nat -> (l < length important)%nat ->
  0 <= g_drop_thres g -> stat l <> 0.
Proof.
  intros EO HN HM Hl HT H0. pose proof (search_nonempty g r ss W SR) as NE. destruct (search_inv g r ss W SR) as (_ & HR & _ & _ & _ & HL & _).
  assert (R0 : 0 <= r_heter r) by exact (HN _ _ _ HR).
  assert (RB : r_heter r <> BIG_M /\ g_small_enough g <= r_heter r).
  { rewrite CH in Hl. unfold choose_important_splits in Hl. destruct (Qceqb_spec (r_heter r) BIG_M); [simpl in Hl; lia|]. split; [assumption|].
    destruct (Qcltb_spec (r_heter r) (g_small_enough g)); [simpl in Hl; lia|]. qlra. }
  destruct (choose_prefix g r ss (proj1 RB) (proj2 RB)) as (m & EC & Hm & HD & _). rewrite <- CH in EC. rewrite EC, firstn_length in Hl.
  specialize (HD l ltac:(lia)). set (h := level_heters r ss) in *.
  assert (HV : forall k s v, (k < length ss)%nat -> s = nth k ss d0 -> In v (s_heter s) -> 0 <= v).
  { intros k s v Hk Es Hv. pose proof (HL k Hk d0) as [_ L2 _ _ _ _ _ _ _]. rewrite <- Es in L2. apply (In_nth _ _ 0) in Hv as (i & Hi & <-).
    apply (Forall2_nth _ _ _ [] 0) in L2 as [Len L2]. eapply HN, (L2 i). lia. }
  assert (HW : forall k, (k < length ss)%nat -> 0 <= h@(S k)).
  { intros k Hk. unfold h, level_heters. cbn [nth]. rewrite nth_map_in with (d := d0) by assumption. pose proof (HL k Hk d0) as [_ _ _ L4 _ _ _ _ _].
    rewrite L4. apply weighted_nonneg. intros v. now apply (HV k). }
  assert (P : h@l <> 0).
  { intros E0. rewrite E0 in HD. unfold drop_exceeds in HD. assert (Hl2 : (l < length ss)%nat) by lia. specialize (HW l Hl2). destruct (Qceqb_spec 0 0) as [_|NZ]; [|now apply NZ]. apply Qcltb_lt in HD. change (h@(S l) < 0) in HD. exact (Qcle_not_lt _ _ HW HD). }
  destruct (stat_heter l ltac:(rewrite EO, EC, firstn_length; lia)) as (hs & HH & ES). rewrite ES in H0. clear ES.
  pose proof (heterogeneities_length _ _ _ _ _ _ HH) as LH.
  assert (POS : forall p, In p (paths l) -> (1 <= length (region X cs p))%nat).
  { intros p Hp. pose proof (HL l ltac:(lia) d0) as [L1 _ _ _ _ _ _ _ _]. specialize (L1 p Hp).
    replace (region X (map cond_of ss) p) with (region X cs p) in L1; [lia|]. symmetry. rewrite EO, EC. apply (region_prefix g ss m l); [rewrite firstn_length; lia|now apply paths_len]. }
  assert (NNH : forall v, In v hs -> 0 <= v).
  { intros v Hv. apply (In_nth _ _ 0) in Hv as (i & Hi & <-). apply (Forall2_nth _ _ _ [] 0) in HH as [_ HH]. eapply HN, (HH i). lia. }
  (* all heterogeneities of the level are zero *)
  assert (Z : forall v, In v hs -> v = 0).
  { assert (NX : 0 < qn (length X)) by (apply qn_pos; destruct X; [congruence|simpl; lia]).
    assert (G : forall ps vs, (forall p, In p ps -> (1 <= length (region X cs p))%nat) -> length vs = length ps -> (forall v, In v vs -> 0 <= v) ->
      sumq (map (fun q => qn (length (region X cs (fst q))) / qn (length X) * snd q) (combine ps vs)) = 0 -> forall v, In v vs -> v = 0).
    { induction ps as [|p ps IH]; intros [|v vs] HP LL HVs HS w Hw; simpl in LL; try lia; [destruct Hw|]. simpl in HS.
      assert (A : 0 <= qn (length (region X cs p)) / qn (length X) * v) by (apply Qcmult_le_0; [apply Qcdiv_le_0; [apply qn_nonneg|assumption]|apply HVs; now left]).
      assert (B : 0 <= sumq (map (fun q => qn (length (region X cs (fst q))) / qn (length X) * snd q) (combine ps vs))).
      { apply sumq_nonneg. intros y Hy. apply in_map_iff in Hy as ([q u] & <- & Hq). simpl. apply Qcmult_le_0; [apply Qcdiv_le_0; [apply qn_nonneg|assumption]|apply HVs; right; now apply in_combine_r in Hq]. }
      assert (A0 : qn (length (region X cs p)) / qn (length X) * v = 0) by qlra.
      assert (B0 : sumq (map (fun q => qn (length (region X cs (fst q))) / qn (length X) * snd q) (combine ps vs)) = 0) by qlra.
      destruct Hw as [<-|Hw]; [|exact (IH vs (fun q Hq => HP q (or_intror Hq)) ltac:(lia) (fun u Hu => HVs u (or_intror Hu)) B0 w Hw)].
      apply Qcmult_integral in A0 as [A0|A0]; [|assumption]. exfalso.
      assert (0 < qn (length (region X cs p)) / qn (length X)). { apply Qcdiv_lt_0; [apply qn_pos; specialize (HP p (or_introl eq_refl)); lia|assumption]. } qlra. }
    apply (G (paths l) hs POS LH NNH H0). }
  (* so the weighted heterogeneity the pruning used is zero as well *)
  apply P. unfold h, level_heters. destruct l as [|l].
  - cbn [nth]. simpl in HH. inversion HH as [|? v ? ? E1 E2]. subst. inversion E2. subst. specialize (Z v (or_introl eq_refl)). subst v.
    rewrite region_nil in E1. destruct (g_effect g) as [e|] eqn:EE; simpl in E1, HR; [|pose proof (eq_trans (eq_sym HR) E1) as K; injection K as K; exact K]. rewrite region_effects_nil in E1; [pose proof (eq_trans (eq_sym HR) E1) as K; injection K as K; exact K|]. destruct W as [_ W2]. rewrite EE in W2. exact W2.
  - cbn [nth]. rewrite nth_map_in with (d := d0) by lia. pose proof (HL l ltac:(lia) d0) as [_ L2 _ L4 _ _ _ _ _]. rewrite L4.
    assert (EH : hs = s_heter (nth l ss d0)).
    { pose proof (heterogeneities_length _ _ _ _ _ _ L2) as A2. apply (Forall2_nth _ _ _ [] 0) in HH as [_ HH]. apply (Forall2_nth _ _ _ [] 0) in L2 as [_ L2].
      apply list_ext with 0; [congruence|]. intros i Hi. rewrite LH in Hi. specialize (HH i Hi). specialize (L2 i Hi). cbv beta in *. rewrite EO, EC in HH.
      assert (HP : length (nth i (paths (S l)) []) = S l) by (apply (paths_len (S l)), nth_In, Hi).
      rewrite <- (region_prefix g ss m (S l)) in HH by (assumption || (rewrite firstn_length; lia)).
      destruct (g_effect g) as [e|]; simpl in *; [|congruence]. rewrite <- (region_effects_prefix g ss m e (S l)) in HH by (assumption || (rewrite firstn_length; lia)). congruence. }
    rewrite <- EH. unfold weighted. assert (S0 : forall q, In q (combine (s_nof (nth l ss d0)) hs) -> qn (fst q + 1) / qn (sumn (map (fun m0 => (m0 + 1)%nat) (s_nof (nth l ss d0)))) * snd q = 0).
    { intros [k v] Hq. apply in_combine_r in Hq. cbn [fst snd]. rewrite (Z v Hq). ring. }
    rewrite (map_ext_in _ (fun _ => 0) _ S0). clear. induction (combine _ _); simpl; [reflexivity|]. rewrite IHl0. ring.
Qed.
End Levels.

(** ** describe_subregions *)
Section Described.
Context (g : regions) (fmt : Qc -> string) (scale : option (list (Qc * Qc))) (r : root) (ss important : list split) (only : bool).
Hypothesis W : wf_regions g.
Hypothesis SR : search_all_splits g = Ok (Some (r, ss)).
Hypothesis CH : important = choose_important_splits g (Some (r, ss)).
Notation used := (if only then important else ss).
Notation X := (rows (g_data g)).
Notation tr := (tree_to g fmt scale (r_heter r) used).
Notation cs := (map cond_of used).
Lemma level_nof l : (l <= length used)%nat -> map n_nof (level_nodes g fmt scale (r_heter r) used l) = sizes X cs l.
Proof.
  intros Hl. destruct (used_prefix g r ss important only (or_intror CH)) as (m & E & _). rewrite E in *. unfold sizes. rewrite <- (map_map (region X _) (@length (list Qc))).
  rewrite <- (level_data g fmt scale r ss m l), map_map. apply map_ext_in. intros n Hn. apply in_level_nodes in Hn as (j & Hj & ->). now apply (node_nof g fmt scale r ss W SR m).
Qed.
Lemma sizes_sum l : (l <= length used)%nat -> sumn (sizes X cs l) = length X.
Proof.
  intros Hl. unfold sizes. rewrite <- (map_map (region X _) (@length (list Qc))), sumn_lengths. apply Permutation_length, region_partition. now rewrite map_length.
Qed.
(** The figures of level [S l]. *)
Definition described (names : list string) (scale' : option (list (Qc * Qc))) (l : nat) : split_report :=
  let s := nth l used d0 in
  let b := stat g fmt scale r ss important only l in let a := stat g fmt scale r ss important only (S l) in
  mkSR (nth (s_feature s) names ""%string) (s_type s)
       (match scale' with None => s_position s | Some q => s_position s * snd (nth (s_feature s) q (0, 0)) + fst (nth (s_feature s) q (0, 0)) end)
       b a (b - a) (if b =? 0 then None else Some ((b - a) / b * Q2Qc 100)) (sizes X cs l) (sizes X cs (S l)).
Lemma describe_level_ok c scale' l : q_names c = g_names g -> (dim (g_data g) <= length (g_names g))%nat ->
  match scale' with None => True | Some sc => (dim (g_data g) <= length sc)%nat end ->
  (S l <= length used)%nat -> describe_level c (tr (length used)) scale' (S l) = Ok (described (g_names g) scale' l).
Proof.
  intros EN HN HS Hl. unfold describe_level. rewrite !level_of_tree. simpl (S l - 1)%nat. rewrite Nat.sub_0_r.
  destruct (Nat.leb_spec l (length used)); [|lia]. destruct (Nat.leb_spec (S l) (length used)); [|lia].
  assert (FI : getn (level_nodes g fmt scale (r_heter r) used (S l)) 0 = Ok (node_at g fmt scale (r_heter r) used (S l) 0)).
  { unfold level_nodes. pose proof (two_pow_pos (S l)). destruct (2 ^ S l)%nat; [lia|]. reflexivity. }
  rewrite FI. cbn [bind node_at n_split]. rewrite EN.
  destruct (used_prefix g r ss important only (or_intror CH)) as (m & E & Hm). destruct (search_inv g r ss W SR) as (_ & _ & _ & _ & _ & HL & _).
  assert (Hd : (s_feature (nth l used d0) < dim (g_data g))%nat).
  { rewrite E, nth_firstn_ by (rewrite E, firstn_length in Hl; lia). apply (lo_dim _ _ _ _ _ (HL l ltac:(rewrite E, firstn_length in Hl; lia) d0)). }
  change (sp used l) with (nth l used d0). set (s := nth l used d0) in *. rewrite (getn_ok _ _ ""%string) by lia. cbn [bind].
  assert (EP : (match scale' with None => Ok (s_position s) | Some l0 => ms <- getn l0 (s_feature s) ;; Ok (s_position s * snd ms + fst ms) end)
     = Ok (match scale' with None => s_position s | Some q => s_position s * snd (nth (s_feature s) q (0, 0)) + fst (nth (s_feature s) q (0, 0)) end)).
  { destruct scale' as [q|]; [|reflexivity]. rewrite (getn_ok _ _ (0, 0)) by lia. reflexivity. }
  rewrite EP. cbn [bind]. unfold quotient. rewrite !level_nof by lia.
  change (weighted_sum (level_nodes g fmt scale (r_heter r) used l)) with (stat g fmt scale r ss important only l).
  change (weighted_sum (level_nodes g fmt scale (r_heter r) used (S l))) with (stat g fmt scale r ss important only (S l)).
  unfold described. fold s. destruct (stat g fmt scale r ss important only l =? 0); reflexivity.
Qed.
End Described.

(** ** The object *)
Section Object.
Context (x : externals) (c : rconfig) (limit : nat).
(** The partition of [f] and its two trees are those the object holds. *)
Definition settled (st : qstate) (f : nat) (p : regions * found * list split) (t1 t2 : option tree) : Prop :=
  qs_fitted st f = true /\ qs_full st f = Some t1 /\ qs_pruned st f = Some t2 /\ qs_part st f = Some p /\ tree_of x p false None = Ok t1 /\ tree_of x p true None = Ok t2.
Lemma fit_one_settled st f o st' : rfit_one x c st f o = (st', Ok tt) ->
  exists p t1 t2, partition_of x c f o = Ok p /\ settled st' f p t1 t2 /\ (f < dim (q_data c))%nat.
Proof.
  unfold rfit_one. destruct (partition_of x c f o) as [p|e]; [|discriminate]. destruct (tree_of x p false None) as [t1|e] eqn:T1; [|discriminate].
  destruct (tree_of x p true None) as [t2|e] eqn:T2; [|discriminate]. destruct (Nat.ltb_spec f (dim (q_data c))) as [L|L]; [|discriminate]. intros H. injection H as <-. exists p, t1, t2.
  unfold settled. simpl. rewrite !upd_same. repeat split; assumption.
Qed.
Lemma attrs_settled st st' f p t1 t2 : attrs st' f = attrs st f -> settled st f p t1 t2 -> settled st' f p t1 t2.
Proof. intros E. unfold attrs in E. injection E as E1 E2 E3 E4 E5 E6 E7. unfold settled. now rewrite E1, E2, E3, E4. Qed.
Lemma fit_loop_settled fs o f : forall st st', In f fs -> rfit_loop x c st fs o = (st', Ok tt) ->
  exists p t1 t2, partition_of x c f o = Ok p /\ settled st' f p t1 t2 /\ (f < dim (q_data c))%nat.
Proof.
  induction fs as [|a fs IH]; intros st st' HI H; [destruct HI|]. simpl in H. destruct (rfit_one x c st a o) as [st1 [[]|e]] eqn:H1; [|discriminate].
  destruct (in_dec Nat.eq_dec f fs) as [I|NI]; [now apply (IH st1)|]. destruct HI as [->|HI]; [|contradiction].
  destruct (fit_one_settled _ _ _ _ H1) as (p & t1 & t2 & A & B & C). exists p, t1, t2. split; [assumption|]. split; [|assumption].
  apply (attrs_settled st1); [|exact B]. pose proof (fit_loop_other x c fs o st1 f NI) as E. now rewrite H in E.
Qed.
Lemma rfit_settled fs o f st st' : In f fs -> rfit x c st fs o = (st', Ok tt) ->
  exists p t1 t2, partition_of x c f o = Ok p /\ settled st' f p t1 t2 /\ (f < dim (q_data c))%nat /\ (2 <= fo_minpts o)%nat.
Proof.
  intros HI H. unfold rfit in H. destruct (Nat.leb_spec 2 (fo_minpts o)); [|discriminate]. destruct (fit_loop_settled fs o f st st' HI H) as (p & t1 & t2 & A & B & C). now exists p, t1, t2.
Qed.
Lemma refit_settled st f p t1 t2 : (f < dim (q_data c))%nat -> settled st f p t1 t2 -> rrefit x c st f = (st, Ok tt).
Proof. intros Hf (F & _). unfold rrefit. now rewrite (proj2 (Nat.ltb_lt _ _) Hf), F. Qed.
Lemma refit_keeps st a f p t1 t2 : (f < dim (q_data c))%nat -> settled st f p t1 t2 -> settled (fst (rrefit x c st a)) f p t1 t2.
Proof.
  intros Hf S0. destruct (Nat.eq_dec a f) as [->|NE]; [now rewrite (refit_settled st f p t1 t2 Hf S0)|]. apply (attrs_settled st); [|exact S0]. now apply refit_other.
Qed.
Lemma store_keeps st a f sc p t1 t2 : settled st f p t1 t2 -> settled (fst (store_scaled x st a sc)) f p t1 t2.
Proof.
  intros S0. unfold store_scaled. destruct sc; [|exact S0]. destruct (qs_part st a) as [q|]; [|exact S0]. destruct (tree_of x q false _); [|exact S0]. destruct (tree_of x q true _); exact S0.
Qed.
Lemma loop_keeps {A} (report : qstate -> nat -> res A) fs f p t1 t2 : (f < dim (q_data c))%nat ->
  forall st, settled st f p t1 t2 -> settled (fst (report_loop x c report st fs)) f p t1 t2.
Proof.
  intros Hf. induction fs as [|a fs IH]; intros st S0; [exact S0|]. simpl. pose proof (refit_keeps st a f p t1 t2 Hf S0) as S1. destruct (rrefit x c st a) as [st1 [u|e]]; [|exact S1]. simpl in S1.
  destruct (report st1 a) as [b|e]; [|exact S1]. specialize (IH st1 S1). destruct (report_loop x c report st1 fs). exact IH.
Qed.
(** The call fits feature [f]. *)
Definition xfits (f : nat) (k : xcall) : Prop := match k with XCall k => fits f k | _ => False end.
Lemma xstep_keeps st k f p t1 t2 : (f < dim (q_data c))%nat -> ~ xfits f k -> settled st f p t1 t2 -> settled (xstep x c limit st k) f p t1 t2.
Proof.
  intros Hf NF S0. destruct k as [[fs o|a n xs h ce|a n xs h ce sc]|fs b sc|fs b sc]; simpl.
  - apply (attrs_settled st); [|exact S0]. now apply rfit_other.
  - unfold reval. pose proof (refit_keeps st a f p t1 t2 Hf S0) as S1. destruct (rrefit x c st a) as [st1 [u|e]]; exact S1.
  - unfold rplot. pose proof (refit_keeps st a f p t1 t2 Hf S0) as S1. destruct (rrefit x c st a) as [st1 [u|e]]; [|exact S1]. simpl in S1.
    pose proof (store_keeps st1 a f sc p t1 t2 S1) as S2. destruct (store_scaled x st1 a sc) as [st2 [u2|e]]; exact S2.
  - now apply loop_keeps.
  - now apply loop_keeps.
Qed.
Lemma xrun_keeps ks f p t1 t2 : (f < dim (q_data c))%nat -> forall st, Forall (fun k => ~ xfits f k) ks -> settled st f p t1 t2 -> settled (xrun x c limit st ks) f p t1 t2.
Proof. intros Hf. induction ks as [|k ks IH]; intros st H S0; [exact S0|]. inversion H. subst. apply (IH (xstep x c limit st k)); [assumption|]. now apply xstep_keeps. Qed.
Lemma after_fit ks1 fs o ks2 f : In f fs -> Forall (fun k => ~ xfits f k) ks2 -> snd (rfit x c (xrun x c limit qfresh ks1) fs o) = Ok tt ->
  exists p t1 t2, partition_of x c f o = Ok p /\ settled (xrun x c limit qfresh (ks1 ++ XCall (QFit fs o) :: ks2)) f p t1 t2 /\ (f < dim (q_data c))%nat /\ (2 <= fo_minpts o)%nat.
Proof.
  intros HI HN HF. destruct (rfit x c (xrun x c limit qfresh ks1) fs o) as [st' [[]|e]] eqn:E; [|discriminate].
  destruct (rfit_settled fs o f _ _ HI E) as (p & t1 & t2 & A & B & C & D). exists p, t1, t2. split; [assumption|]. split; [|split; assumption].
  unfold xrun. rewrite fold_left_app. simpl. change (fold_left (xstep x c limit) ks1 qfresh) with (xrun x c limit qfresh ks1). rewrite E. simpl. now apply xrun_keeps.
Qed.
Lemma shown_settled st f only scale p t1 t2 t : settled st f p t1 t2 -> tree_of x p only scale = Ok t ->
  (scale <> None -> exists t', tree_of x p (negb only) scale = Ok t') -> shown_tree x st f only scale = Ok t.
Proof.
  intros (F & A & B & C & T1 & T2) T O. unfold shown_tree. destruct scale as [sc|].
  - destruct (O ltac:(discriminate)) as [t' T']. unfold scaled_tree. rewrite C. destruct only; simpl in T'; rewrite T; cbn [bind]; rewrite T'; reflexivity.
  - destruct only; [rewrite B|rewrite A]; congruence.
Qed.
Lemma show_settled st f only scale p t1 t2 t : (f < dim (q_data c))%nat -> settled st f p t1 t2 -> tree_of x p only scale = Ok t ->
  (scale <> None -> exists t', tree_of x p (negb only) scale = Ok t') ->
  show_partitioning x c limit st [f] only scale = (st, rmap (fun a => [a]) (report_tree c limit t)).
Proof.
  intros Hf S0 T O. unfold show_partitioning. simpl. rewrite (refit_settled st f p t1 t2 Hf S0). rewrite (shown_settled st f only scale p t1 t2 t S0 T O). cbn [bind].
  destruct (report_tree c limit t); reflexivity.
Qed.
Lemma describe_settled st f only scale p t1 t2 : (f < dim (q_data c))%nat -> settled st f p t1 t2 ->
  describe_subregions x c st [f] only scale = (st, rmap (fun a => [a]) (describe_feature c only scale st f)).
Proof.
  intros Hf S0. unfold describe_subregions. simpl. rewrite (refit_settled st f p t1 t2 Hf S0). destruct (describe_feature c only scale st f); reflexivity.
Qed.

(** ** Several features at once *)
Definition local {A} (report : qstate -> nat -> res A) : Prop := forall st st' f, attrs st f = attrs st' f -> report st f = report st' f.
Lemma refit_local st st' f : attrs st f = attrs st' f ->
  snd (rrefit x c st f) = snd (rrefit x c st' f) /\ attrs (fst (rrefit x c st f)) f = attrs (fst (rrefit x c st' f)) f.
Proof.
  intros E. pose proof E as E0. unfold attrs in E. injection E as E1 E2 E3 E4 E5 E6 E7. unfold rrefit. destruct (Nat.ltb f (dim (q_data c))) eqn:Hf; [|now split].
  rewrite E1. destruct (qs_fitted st' f) eqn:F; [now split|]. unfold rfit. destruct (Nat.leb 2 _); [|now split]. simpl. unfold rfit_one.
  destruct (partition_of x c f _) as [p|]; [|now split]. destruct (tree_of x p false None) as [t1|]; [|now split].
  destruct (tree_of x p true None) as [t2|]; [|split; [reflexivity|unfold attrs; simpl; rewrite !upd_same; congruence]]. rewrite Hf. simpl. split; [reflexivity|]. unfold attrs. simpl. rewrite !upd_same. congruence.
Qed.
Lemma refit_twice st f : snd (rrefit x c st f) = Ok tt -> rrefit x c (fst (rrefit x c st f)) f = (fst (rrefit x c st f), Ok tt).
Proof.
  unfold rrefit at 1 3 4. destruct (Nat.ltb f (dim (q_data c))) eqn:Hf; [|discriminate]. destruct (qs_fitted st f) eqn:F; intros H; unfold rrefit; rewrite Hf; simpl.
  - now rewrite F.
  - destruct (rfit x c st [f] (default_opts (q_kind c))) as [st' [[]|e]] eqn:E; [|discriminate]. destruct (rfit_settled [f] _ f st st' (or_introl eq_refl) E) as (p & t1 & t2 & _ & (F' & _) & _). simpl. now rewrite F'.
Qed.
Lemma loop_local {A} (report : qstate -> nat -> res A) fs : local report -> forall st0 st rs,
  (forall f, attrs st f = attrs st0 f \/ (snd (rrefit x c st0 f) = Ok tt /\ attrs st f = attrs (fst (rrefit x c st0 f)) f)) ->
  snd (report_loop x c report st fs) = Ok rs -> Forall2 (fun f a => snd (report_loop x c report st0 [f]) = Ok [a]) fs rs.
Proof.
  intros HL. induction fs as [|a fs IH]; intros st0 st rs HS H; simpl in H; [injection H as <-; constructor|].
  destruct (rrefit x c st a) as [st1 [u|e]] eqn:E; [|discriminate]. destruct (report st1 a) as [b|e] eqn:R; [|discriminate].
  assert (K : snd (rrefit x c st0 a) = Ok tt /\ attrs st1 a = attrs (fst (rrefit x c st0 a)) a).
  { destruct (HS a) as [HA|[HO HA]].
    - destruct (refit_local st st0 a HA) as [K1 K2]. rewrite E in K1, K2. simpl in *. destruct u. auto.
    - destruct (refit_local st _ a HA) as [K1 K2]. rewrite E in K1, K2. rewrite (refit_twice st0 a HO) in K1, K2. simpl in *. auto. }
  destruct K as [K1 K2]. destruct (report_loop x c report st1 fs) as [st2 [rs'|e]] eqn:L; [|discriminate]. simpl in H. injection H as <-. constructor.
  - simpl. destruct (rrefit x c st0 a) as [s0 [u0|e]]; [|discriminate]. simpl in K2. rewrite <- (HL st1 s0 a K2), R. reflexivity.
  - apply (IH st0 st1); [|now rewrite L]. intros f. destruct (Nat.eq_dec a f) as [->|NE]; [right; now split|].
    pose proof (refit_other x c st a f NE) as O. rewrite E in O. simpl in O. rewrite O. apply HS.
Qed.
Lemma show_local only scale : local (fun st f => t <- shown_tree x st f only scale ;; report_tree c limit t).
Proof. intros st st' f E. unfold attrs in E. injection E as E1 E2 E3 E4 E5 E6 E7. unfold shown_tree, scaled_tree. rewrite E2, E3, E4. reflexivity. Qed.
Lemma describe_local only scale : local (describe_feature c only scale).
Proof. intros st st' f E. unfold attrs in E. injection E as E1 E2 E3 E4 E5 E6 E7. unfold describe_feature. rewrite E2, E3. reflexivity. Qed.
End Object.
