(** Proofs about Binning.v (C11-C17). *)
From Verif Require Import Base Numpy Spec NumpyFacts Utils UtilsProofs Binning.
Open Scope Qc_scope.
Open Scope list_scope.

(** ** generic *)
Lemma effects_in_length xs es a c : length es = length xs -> length (effects_in xs es a c) = points_in xs a c.
Proof.
  intros H. unfold effects_in, points_in, count. rewrite map_length.
  rewrite <- (combine_map_fst xs es) at 2 by congruence. now rewrite filter_map_comm, map_length.
Qed.

Lemma bin_valid_spec b m a c : bin_valid b (Some m) a c = true <-> (m <= points_in (b_xs b) a c)%nat.
Proof. unfold bin_valid. rewrite Nat.leb_le. reflexivity. Qed.

Lemma all_bins_spec f l : all_bins f l = true <-> forall k, (S k < length l)%nat -> f l@k l@(S k) = true.
Proof.
  unfold all_bins. rewrite forallb_forall. split.
  - intros H k Hk. specialize (H (l@k, l@(S k))). apply H.
    rewrite <- diff_nth_gen by exact Hk. apply nth_In. rewrite combine_tl_length. lia.
  - intros H p Hp. apply (In_nth _ _ (0,0)) in Hp as (k & Hk & <-). rewrite combine_tl_length in Hk.
    rewrite diff_nth_gen by lia. apply H. lia.
Qed.

Lemma all_bins_populated b m l : all_bins (bin_valid b (Some m)) l = true <-> populated (b_xs b) m l.
Proof.
  rewrite all_bins_spec. unfold populated. split; intros H k Hk; apply bin_valid_spec; auto.
Qed.

Lemma linspace_grid lo hi K i : (1 <= K)%nat -> (i <= K)%nat -> (linspace lo hi (K + 1))@i = grid lo hi K i.
Proof. intros HK Hi. rewrite linspace_nth by lia. unfold grid. now replace (K + 1 - 1)%nat with K by lia. Qed.

Lemma grid_0 lo hi K : grid lo hi K 0 = lo.
Proof. unfold grid. rewrite qn_0. ring. Qed.
Lemma grid_K lo hi K : (1 <= K)%nat -> grid lo hi K K = hi.
Proof. intros H. unfold grid. field. apply qn_neq0. lia. Qed.
Lemma grid_lt lo hi K i j : lo < hi -> (1 <= K)%nat -> (i < j)%nat -> grid lo hi K i < grid lo hi K j.
Proof.
  intros H HK Hij. unfold grid. assert (W : 0 < (hi - lo) / qn K) by (apply Qcdiv_lt_0; [qlra|apply qn_pos; lia]).
  apply qn_lt in Hij. pose proof (Qcmul_lt_compat_r _ _ _ W Hij). qlra.
Qed.
Lemma grid_le lo hi K i j : lo < hi -> (1 <= K)%nat -> (i <= j)%nat -> grid lo hi K i <= grid lo hi K j.
Proof.
  intros H HK Hij. destruct (Nat.eq_dec i j) as [->|]; [apply Qcle_refl|]. apply Qclt_le_weak, grid_lt; auto. lia.
Qed.
Lemma position_grid b K i : position b K i = grid (b_lo b) (b_hi b) K i. Proof. reflexivity. Qed.

(** a grid binning is an increasing list from lo to hi *)
Lemma StronglySorted_nth l : StronglySorted lt l -> forall i j, (i < j)%nat -> (j < length l)%nat -> (nth i l 0 < nth j l 0)%nat.
Proof.
  induction 1 as [|a l Hs IH Hf]; intros i j Hij Hj; [simpl in Hj; lia|].
  destruct j as [|j]; [lia|]. simpl in Hj. destruct i as [|i].
  - simpl. rewrite Forall_forall in Hf. apply Hf, nth_In. lia.
  - simpl. apply IH; lia.
Qed.
Lemma grid_binning_shape lo hi K l : lo < hi -> (1 <= K)%nat -> grid_binning lo hi K l ->
  increasing l /\ (2 <= length l)%nat /\ l@0 = lo /\ l@(length l - 1) = hi /\
  (forall x, In x l -> exists i, (i <= K)%nat /\ x = grid lo hi K i).
Proof.
  intros Hlh HK (mid & Hs & ->).
  assert (L : length (0 :: mid ++ [K])%nat = (length mid + 2)%nat) by (simpl; rewrite app_length; simpl; lia).
  split; [|split; [|split; [|split]]].
  - intros i j Hij Hj. rewrite map_length in Hj. rewrite !(nth_map_in _ _ _ 0%nat) by lia.
    apply grid_lt; auto. apply StronglySorted_nth; auto.
  - rewrite map_length, L. lia.
  - rewrite (nth_map_in _ _ _ 0%nat) by lia. simpl. apply grid_0.
  - rewrite map_length, L, (nth_map_in _ _ _ 0%nat) by lia.
    replace (length mid + 2 - 1)%nat with (S (length mid)) by lia. simpl nth.
    rewrite app_nth2 by lia. rewrite Nat.sub_diag. simpl. now apply grid_K.
  - intros x Hx. apply in_map_iff in Hx as (i & <- & Hi). exists i. split; [|reflexivity].
    assert (F : Forall (fun a => (a <= K)%nat) (0 :: mid ++ [K])%nat); [|rewrite Forall_forall in F; now apply F].
    clear L Hi. rewrite app_comm_cons in Hs |- *. remember (0 :: mid)%nat as q. clear Heqq.
    induction q as [|a q IH]; simpl in *; [repeat constructor|]. inversion_clear Hs as [|? ? H1 H2].
    constructor; [|now apply IH]. rewrite Forall_forall in H2. assert (a < K)%nat; [|lia]. apply H2, in_or_app. right. now left.
Qed.

Lemma points_in_mono xs a c a' c' : a' <= a -> c <= c' -> (points_in xs a c <= points_in xs a' c')%nat.
Proof.
  intros Ha Hc. unfold points_in, count. induction xs as [|x xs IH]; [reflexivity|]. simpl.
  destruct ((a <=? x) && (x <=? c))%bool eqn:E.
  - apply andb_true_iff in E as [E1 E2]. apply Qcleb_le in E1, E2.
    assert (A : (a' <=? x) = true) by (apply Qcleb_le; qlra). assert (B : (x <=? c') = true) by (apply Qcleb_le; qlra).
    rewrite A, B. simpl. lia.
  - destruct ((a' <=? x) && (x <=? c'))%bool; simpl; lia.
Qed.
Lemma points_in_all xs a c : (forall x, In x xs -> a <= x <= c) -> points_in xs a c = length xs.
Proof.
  intros H. unfold points_in, count. rewrite filter_all; [reflexivity|]. intros x Hx. apply H in Hx as [A B].
  apply Qcleb_le in A, B. now rewrite A, B.
Qed.

(** ** Fixed *)
Lemma unique_length_le l : (length (unique l) <= length l)%nat.
Proof.
  apply NoDup_incl_length; [apply increasing_NoDup, unique_increasing|]. intros x Hx. now apply unique_in.
Qed.

Lemma is_categorical_none b mp c : (c < length (unique (b_xs b)))%nat -> is_categorical b mp c = Ok None.
Proof. intros H. unfold is_categorical. destruct (Nat.leb_spec (length (unique (b_xs b))) c); [lia|reflexivity]. Qed.

Lemma fixed_find_cont b n m c : (c < length (unique (b_xs b)))%nat ->
  (populated (b_xs b) m (linspace (b_lo b) (b_hi b) (n + 1)) /\
   fixed_find b n (Some m) c = Ok (LArr (linspace (b_lo b) (b_hi b) (n + 1)))) \/
  (~ populated (b_xs b) m (linspace (b_lo b) (b_hi b) (n + 1)) /\ fixed_find b n (Some m) c = Ok LFalse).
Proof.
  intros H. unfold fixed_find. simpl none_valid_binning. unfold bind at 1. rewrite is_categorical_none by exact H.
  unfold bind at 1. destruct (all_bins _ _) eqn:E; [left|right]; (split; [|reflexivity]).
  - now apply all_bins_populated.
  - rewrite <- all_bins_populated. congruence.
Qed.

(** ** Categorical limits *)
Lemma diffs_length l : length (diffs l) = (length l - 1)%nat.
Proof. unfold diffs. now rewrite map_length, combine_tl_length. Qed.
Lemma diffs_nth l k : (S k < length l)%nat -> (diffs l)@k = l@(S k) - l@k.
Proof.
  intros H. unfold diffs. rewrite (nth_map_in _ _ _ (0,0)) by (rewrite combine_tl_length; lia).
  now rewrite diff_nth_gen.
Qed.

Lemma cat_limits_ok u : (2 <= length u)%nat ->
  exists l, cat_limits u = Ok l /\ length l = S (length u) /\
    l@0 = u@0 - (u@1 - u@0) / Q2Qc 2 /\
    (forall k, (S k < length u)%nat -> l@(S k) = u@k + (u@(S k) - u@k) / Q2Qc 2) /\
    l@(length u) = u@(length u - 1) + (u@(length u - 1) - u@(length u - 2)) / Q2Qc 2.
Proof.
  intros H. unfold cat_limits. rewrite (getn_ok u 0 0) by lia. unfold bind at 1.
  rewrite (getn_ok (diffs u) 0 0) by (rewrite diffs_length; lia). unfold bind at 1.
  rewrite (getz_last u 0) by (destruct u; [simpl in H; lia|discriminate]). unfold bind at 1.
  assert (ND : diffs u <> []) by (intros E; apply (f_equal (@length Qc)) in E; rewrite diffs_length in E; simpl in E; lia).
  rewrite (getz_last (diffs u) 0) by exact ND. unfold bind at 1.
  rewrite diffs_length. rewrite !diffs_nth by lia.
  set (mid := map _ _).
  assert (Lm : length mid = (length u - 1)%nat) by (unfold mid; rewrite map_length, combine_length, diffs_length; lia).
  assert (Nm : forall k, (S k < length u)%nat -> mid@k = u@k + (u@(S k) - u@k) / Q2Qc 2).
  { intros k Hk. unfold mid. rewrite (nth_map_in _ _ _ (0,0)) by (rewrite combine_length, diffs_length; lia).
    assert (E : nth k (combine u (diffs u)) (0,0) = (u@k, (diffs u)@k)).
    { clear -Hk. assert (L : (k < length (diffs u))%nat) by (rewrite diffs_length; lia). revert L Hk.
      generalize (diffs u). intros d. revert u d. induction k as [|k IH]; intros [|x u] [|y d] L Hk; simpl in *; try lia; [reflexivity|].
      apply IH; lia. }
    rewrite E. cbn [fst snd]. now rewrite diffs_nth. }
  eexists. split; [reflexivity|]. split; [rewrite !app_length; simpl; lia|]. split; [reflexivity|]. split.
  - intros k Hk. rewrite app_nth2 by (simpl; lia). simpl length. replace (S k - 1)%nat with k by lia.
    rewrite app_nth1 by lia. now apply Nm.
  - rewrite app_nth2 by (simpl; lia). simpl length. rewrite app_nth2 by lia. rewrite Lm, Nat.sub_diag.
    cbn [nth]. replace (S (length u - 1 - 1)) with (length u - 1)%nat by lia.
    replace (length u - 1 - 1)%nat with (length u - 2)%nat by lia. reflexivity.
Qed.

Lemma cat_limits_strict u l : (2 <= length u)%nat -> increasing u -> cat_limits u = Ok l ->
  length l = S (length u) /\ increasing l /\ forall k, (k < length u)%nat -> l@k < u@k < l@(S k).
Proof.
  intros H Hi E. destruct (cat_limits_ok u H) as (l' & E' & L & L0 & Lk & Ll). rewrite E in E'. injection E' as <-.
  assert (In1 : forall k, (k < length u)%nat -> l@k < u@k).
  { intros [|k] Hk.
    - rewrite L0. pose proof (Hi 0%nat 1%nat ltac:(lia) ltac:(lia)). qlra.
    - rewrite Lk by lia. pose proof (Hi k (S k) ltac:(lia) ltac:(lia)). qlra. }
  assert (In2 : forall k, (k < length u)%nat -> u@k < l@(S k)).
  { intros k Hk. destruct (Nat.eq_dec (S k) (length u)) as [Ek|Nk].
    - rewrite Ek, Ll. replace (length u - 1)%nat with k by lia.
      pose proof (Hi (length u - 2)%nat k ltac:(lia) ltac:(lia)). qlra.
    - rewrite Lk by lia. pose proof (Hi k (S k) ltac:(lia) ltac:(lia)). qlra. }
  split; [exact L|]. split; [|intros k Hk; split; auto].
  apply increasing_adj. intros i Hii. rewrite L in Hii. apply Qclt_trans with (u@i); [apply In1|apply In2]; lia.
Qed.

(** closed bins contain exactly one distinct value each *)
Lemma cat_bin_occurrences xs l k : let u := unique xs in (2 <= length u)%nat -> cat_limits u = Ok l -> (k < length u)%nat ->
  points_in xs l@k l@(S k) = occurrences xs u@k.
Proof.
  intros u H E Hk. destruct (cat_limits_strict u l H (unique_increasing xs) E) as (L & Il & Hin).
  unfold points_in, occurrences, count. f_equal. apply filter_ext_in. intros x Hx.
  apply unique_in in Hx. fold u in Hx. apply (In_nth _ _ 0) in Hx as (j & Hj & Ex).
  destruct (Nat.lt_trichotomy j k) as [Lt|[->|Gt]].
  - assert (A : x < l@k).
    { rewrite <- Ex. apply Qclt_le_trans with (l@(S j)); [apply Hin; exact Hj|].
      destruct (Nat.eq_dec (S j) k) as [->|]; [apply Qcle_refl|]. apply Qclt_le_weak, Il; lia. }
    destruct (Hin k Hk) as [B _]. assert (x <> u@k) by qlra.
    apply Qceqb_neq in H0. rewrite H0. apply Qcleb_gt in A. now rewrite A.
  - rewrite Ex. destruct (Hin k Hk) as [A B]. rewrite Ex in A, B.
    assert (A' : l@k <= x) by qlra. assert (B' : x <= l@(S k)) by qlra. apply Qcleb_le in A', B'. rewrite A', B'.
    symmetry. apply Qceqb_eq. reflexivity.
  - assert (A : l@(S k) < x).
    { rewrite <- Ex. apply Qcle_lt_trans with (l@j); [|apply Hin; exact Hj].
      destruct (Nat.eq_dec (S k) j) as [->|]; [apply Qcle_refl|]. apply Qclt_le_weak, Il; lia. }
    destruct (Hin k Hk) as [_ B]. assert (x <> u@k) by qlra.
    apply Qceqb_neq in H0. rewrite H0. apply Qcleb_gt in A. rewrite A. apply andb_false_r.
Qed.

Lemma cat_populated xs l m : let u := unique xs in (2 <= length u)%nat -> cat_limits u = Ok l ->
  (populated xs m l <-> forall v, In v xs -> (m <= occurrences xs v)%nat).
Proof.
  intros u H E. destruct (cat_limits_strict u l H (unique_increasing xs) E) as (L & _ & _). unfold populated. split.
  - intros P v Hv. apply unique_in in Hv. fold u in Hv. apply (In_nth _ _ 0) in Hv as (k & Hk & <-).
    pose proof (cat_bin_occurrences xs l k H E Hk) as Q. cbv zeta in Q. fold u in Q. rewrite <- Q. apply P. lia.
  - intros P k Hk. assert (Hk' : (k < length u)%nat) by lia.
    pose proof (cat_bin_occurrences xs l k H E Hk') as Q. cbv zeta in Q. rewrite Q. apply P. apply unique_in. apply nth_In. fold u. lia.
Qed.

Lemma is_categorical_some b m c : (2 <= length (unique (b_xs b)))%nat -> (length (unique (b_xs b)) <= c)%nat ->
  exists l, cat_limits (unique (b_xs b)) = Ok l /\
    is_categorical b (Some m) c = Ok (Some (if all_bins (bin_valid b (Some m)) l then LArr l else LFalse)).
Proof.
  intros H Hc. destruct (cat_limits_ok _ H) as (l & E & _). exists l. split; [exact E|].
  unfold is_categorical. destruct (Nat.leb_spec (length (unique (b_xs b))) c); [|lia]. rewrite E. reflexivity.
Qed.

(** the min_points and cat_limit arguments that each method passes on *)
Definition method_min_points (mth : method) : option nat :=
  match mth with MStr _ => Some 0%nat | MFixed _ m _ => m | MGreedy _ m _ _ => m | MDP _ m _ _ => m end.
Definition method_cat_limit (mth : method) : nat :=
  match mth with MStr _ => 15%nat | MFixed _ _ c => c | MGreedy _ _ _ c => c | MDP _ _ _ c => c end.
Definition method_known (mth : method) : Prop :=
  match mth with MStr s => s = "dp"%string \/ s = "greedy"%string \/ s = "fixed"%string | _ => True end.

Lemma find_cat_aux b m c : (2 <= length (unique (b_xs b)))%nat -> (length (unique (b_xs b)) <= c)%nat ->
  exists l, cat_limits (unique (b_xs b)) = Ok l /\
  forall k : lims -> res lims, 
  (nv <- none_valid_binning b (Some m) ;; if nv then Ok LFalse else x <- is_categorical b (Some m) c ;;
     match x with Some l => Ok l | None => k LFalse end)
  = Ok (if all_bins (bin_valid b (Some m)) l then LArr l else LFalse) /\
  (_ <- none_valid_binning b (Some m) ;; x <- is_categorical b (Some m) c ;;
     match x with Some l => Ok l | None => k LFalse end)
  = Ok (if all_bins (bin_valid b (Some m)) l then LArr l else LFalse).
Proof.
  intros H Hc. destruct (is_categorical_some b m c H Hc) as (l & E & I). exists l. split; [exact E|].
  intros k. rewrite I. split; [|reflexivity]. simpl.
  destruct (Nat.eqb_spec (length (unique (b_xs b))) 1) as [|_]; [lia|]. simpl.
  destruct (Nat.ltb_spec (length (b_xs b)) m) as [Lt|_]; [|reflexivity].
  destruct (all_bins _ l) eqn:A; [exfalso|reflexivity].
  apply all_bins_populated in A. destruct (cat_limits_strict _ l H (unique_increasing _) E) as (L & _ & _).
  specialize (A 0%nat ltac:(lia)). unfold points_in, count in A.
  pose proof (filter_length_le (fun x => (l@0 <=? x) && (x <=? l@1)) (b_xs b)). lia.
Qed.

Lemma find_limits_cat b mth m : method_known mth -> method_min_points mth = Some m ->
  (2 <= length (unique (b_xs b)))%nat -> (length (unique (b_xs b)) <= method_cat_limit mth)%nat ->
  exists l, length l = S (length (unique (b_xs b))) /\ increasing l /\
    (forall k, (k < length (unique (b_xs b)))%nat -> l@k < (unique (b_xs b))@k < l@(S k)) /\
    ((forall v, In v (b_xs b) -> (m <= occurrences (b_xs b) v)%nat) -> find_limits_b b mth = Ok (LArr l)) /\
    ((exists v, In v (b_xs b) /\ (occurrences (b_xs b) v < m)%nat) -> find_limits_b b mth = Ok LFalse).
Proof.
  intros Hk Hm H Hc. destruct (find_cat_aux b m _ H Hc) as (l & E & F). exists l.
  destruct (cat_limits_strict _ l H (unique_increasing _) E) as (L & Il & Hin).
  split; [exact L|]. split; [exact Il|]. split; [exact Hin|].
  assert (R : find_limits_b b mth = Ok (if all_bins (bin_valid b (Some m)) l then LArr l else LFalse)).
  { destruct mth as [s|n mp c|n mp d c|n mp d c]; simpl in Hm, Hk |- *.
    - injection Hm as <-. destruct Hk as [->|[->| ->]]; simpl.
      + exact (proj1 (F (fun _ => _))).
      + exact (proj1 (F (fun _ => _))).
      + exact (proj2 (F (fun _ => _))).
    - subst mp. exact (proj2 (F (fun _ => _))).
    - subst mp. exact (proj1 (F (fun _ => _))).
    - subst mp. exact (proj1 (F (fun _ => _))). }
  rewrite R. split; intros P.
  - replace (all_bins _ l) with true; [reflexivity|]. symmetry. apply all_bins_populated. now apply cat_populated.
  - destruct (all_bins _ l) eqn:A; [exfalso|reflexivity]. apply all_bins_populated in A.
    rewrite (cat_populated _ l m H E) in A. destruct P as (v & Hv & Lt). specialize (A v Hv). lia.
Qed.

(** ** closed bins versus the half-open bins used for averaging (C16) *)
Lemma closed_bin_eq xs l k x : (2 <= length l)%nat -> increasing l -> (k < length l - 1)%nat -> In x xs ->
  (forall j, (0 < j < length l - 1)%nat -> ~ In l@j xs) ->
  in_bin l k x = ((l@k <=? x) && (x <=? l@(S k)))%bool.
Proof.
  intros Hl Hi Hk Hx Hno. unfold in_bin. f_equal. destruct (Nat.eqb_spec (k + 2) (length l)) as [E|E].
  - simpl. destruct (Qcltb_spec x l@(S k)) as [L|L]; destruct (Qceqb_spec x l@(S k)) as [E'|E']; destruct (Qcleb_spec x l@(S k)) as [L'|L']; try reflexivity; exfalso; qlra.
  - simpl. rewrite orb_false_r. assert (x <> l@(S k)).
    { intros ->. apply (Hno (S k)); [lia|exact Hx]. }
    destruct (Qcltb_spec x l@(S k)) as [L|L]; destruct (Qcleb_spec x l@(S k)) as [L'|L']; try reflexivity; exfalso; qlra.
Qed.

Lemma ppb_populated xs es l m : length es = length xs -> (2 <= length l)%nat -> increasing l -> (forall x, In x xs -> covered l x) ->
  populated xs m l -> (forall j, (0 < j < length l - 1)%nat -> ~ In l@j xs) ->
  exists means ppb, compute_bin_effect xs es l = Ok (means, ppb) /\ length ppb = (length l - 1)%nat /\
    forall k, (k < length l - 1)%nat -> (m <= nth k ppb 0)%nat.
Proof.
  intros Hlen Hl Hi Hc Hp Hno. do 2 eexists. split; [exact (compute_bin_effect_eq xs es l Hlen Hl Hi Hc)|].
  split; [now rewrite map_length, seq_length|]. intros k Hk.
  rewrite (nth_map_in _ _ _ 0%nat) by now rewrite seq_length. rewrite nth_seq by exact Hk. simpl Nat.add.
  specialize (Hp k ltac:(lia)). unfold points_in, count in Hp.
  rewrite (filter_ext_in _ (in_bin l k)) in Hp; [exact Hp|].
  intros x Hx. symmetry. now apply (closed_bin_eq xs).
Qed.

Lemma cat_ppb b mth m l es : method_known mth -> method_min_points mth = Some m -> length es = length (b_xs b) ->
  (2 <= length (unique (b_xs b)))%nat -> (length (unique (b_xs b)) <= method_cat_limit mth)%nat ->
  find_limits_b b mth = Ok (LArr l) ->
  exists means ppb, compute_bin_effect (b_xs b) es l = Ok (means, ppb) /\ length ppb = length (unique (b_xs b)) /\
    forall k, (k < length (unique (b_xs b)))%nat -> (m <= nth k ppb 0)%nat.
Proof.
  intros Hk Hm Hlen H Hc F. destruct (find_limits_cat b mth m Hk Hm H Hc) as (l' & L & Il & Hin & F1 & F2).
  assert (Hocc : forall v, In v (b_xs b) -> (m <= occurrences (b_xs b) v)%nat).
  { intros v Hv. destruct (Nat.le_gt_cases m (occurrences (b_xs b) v)) as [Le|Gt]; [exact Le|].
    rewrite F2 in F by eauto. discriminate. }
  rewrite (F1 Hocc) in F. injection F as <-.
  assert (E : cat_limits (unique (b_xs b)) = Ok l').
  { destruct (find_cat_aux b m _ H Hc) as (l2 & E2 & G). destruct (cat_limits_ok _ H) as (l3 & E3 & _).
    rewrite E2. specialize (F1 Hocc).
    assert (R : find_limits_b b mth = Ok (if all_bins (bin_valid b (Some m)) l2 then LArr l2 else LFalse)).
    { destruct mth as [s|n mp c|n mp d c|n mp d c]; simpl in Hm, Hk |- *.
      - injection Hm as <-. destruct Hk as [->|[->| ->]]; simpl; [exact (proj1 (G (fun _ => _)))|exact (proj1 (G (fun _ => _)))|exact (proj2 (G (fun _ => _)))].
      - subst mp. exact (proj2 (G (fun _ => _))).
      - subst mp. exact (proj1 (G (fun _ => _))).
      - subst mp. exact (proj1 (G (fun _ => _))). }
    rewrite F1 in R. destruct (all_bins _ l2); congruence. }
  assert (Hval : forall x, In x (b_xs b) -> exists j, (j < length (unique (b_xs b)))%nat /\ l'@j < x < l'@(S j)).
  { intros x Hx. apply unique_in in Hx. apply (In_nth _ _ 0) in Hx as (j & Hj & <-). exists j. split; [exact Hj|]. now apply Hin. }
  destruct (ppb_populated (b_xs b) es l' m Hlen) as (means & ppb & R & Lp & P).
  - lia.
  - exact Il.
  - intros x Hx. destruct (Hval x Hx) as (j & Hj & A & B). unfold covered. split.
    + destruct j as [|j]; [qlra|]. pose proof (Il 0%nat (S j) ltac:(lia) ltac:(lia)). qlra.
    + rewrite L. replace (S (length (unique (b_xs b))) - 1)%nat with (length (unique (b_xs b))) by lia.
      destruct (Nat.eq_dec (S j) (length (unique (b_xs b)))) as [<-|]; [qlra|].
      pose proof (Il (S j) (length (unique (b_xs b))) ltac:(lia) ltac:(lia)). qlra.
  - now apply cat_populated.
  - intros j Hj Hx. destruct (Hval _ Hx) as (i & Hi & A & B).
    destruct (Nat.lt_ge_cases i j) as [Lt|Ge].
    + destruct (Nat.eq_dec (S i) j) as [<-|]; [qlra|]. pose proof (Il (S i) j ltac:(lia) ltac:(lia)). qlra.
    + destruct (Nat.eq_dec i j) as [->|]; [qlra|]. pose proof (Il j i ltac:(lia) ltac:(lia)). qlra.
  - exists means, ppb. split; [exact R|]. split; [lia|]. intros k Hk'. apply P. lia.
Qed.

(** ** Impossible binnings (C17) *)
Definition constant (xs : list Qc) : Prop := exists v, xs <> [] /\ forall x, In x xs -> x = v.
Lemma constant_unique xs : constant xs -> length (unique xs) = 1%nat.
Proof.
  intros (v & Hn & H). assert (E : unique xs = [v]).
  { apply increasing_unique_ext; [apply unique_increasing| |].
    - intros i j Hij Hj. simpl in Hj. lia.
    - intros x. rewrite unique_in. split.
      + intros Hx. left. symmetry. auto.
      + intros [<-|[]]. destruct xs as [|y xs]; [congruence|]. rewrite <- (H y); [now left|now left]. }
  now rewrite E.
Qed.

Lemma greedy_dp_impossible b m n d c : constant (b_xs b) \/ (length (b_xs b) < m)%nat ->
  greedy_find b n d (Some m) c = Ok LFalse /\ dp_find b n (Some m) d c = Ok LFalse.
Proof.
  intros H. assert (E : none_valid_binning b (Some m) = Ok true).
  { unfold none_valid_binning. destruct H as [H|H].
    - now rewrite (constant_unique _ H).
    - apply Nat.ltb_lt in H. rewrite H. now rewrite orb_true_r. }
  unfold greedy_find, dp_find. rewrite E. auto.
Qed.

Lemma fixed_too_few b m n c : (length (b_xs b) < m)%nat -> (1 < length (unique (b_xs b)))%nat -> (1 <= n)%nat ->
  fixed_find b n (Some m) c = Ok LFalse.
Proof.
  intros H Hu Hn. destruct (Nat.le_gt_cases (length (unique (b_xs b))) c) as [Le|Gt].
  - destruct (find_limits_cat b (MFixed n (Some m) c) m I eq_refl Hu Le) as (l & _ & _ & _ & _ & F).
    apply F. destruct (b_xs b) as [|x xs] eqn:E; [simpl in Hu; lia|]. exists x. split; [now left|].
    unfold occurrences, count. eapply Nat.le_lt_trans; [apply filter_length_le|]. exact H.
  - destruct (fixed_find_cont b n m c Gt) as [[P _]|[_ F]]; [exfalso|exact F].
    specialize (P 0%nat). rewrite linspace_length in P. specialize (P ltac:(lia)).
    unfold points_in, count in P. pose proof (filter_length_le (fun x => ((linspace (b_lo b) (b_hi b) (n + 1))@0 <=? x) && (x <=? (linspace (b_lo b) (b_hi b) (n + 1))@1)) (b_xs b)).
    lia.
Qed.

Lemma fixed_constant b mp n c : constant (b_xs b) -> (1 <= c)%nat -> fixed_find b n (Some mp) c = Raise IndexError.
Proof.
  intros H Hc. unfold fixed_find. simpl none_valid_binning. unfold bind at 1. unfold is_categorical.
  rewrite (constant_unique _ H). destruct (Nat.leb_spec 1 c); [|lia].
  unfold cat_limits. rewrite (getn_ok _ 0 0) by (rewrite (constant_unique _ H); lia). unfold bind at 3.
  rewrite getn_raise; [reflexivity|]. rewrite diffs_length, (constant_unique _ H). lia.
Qed.

Lemma none_min_points b n d c : fixed_find b n None c = Raise TypeError /\ greedy_find b n d None c = Raise TypeError /\ dp_find b n None d c = Raise TypeError.
Proof. repeat split. Qed.
