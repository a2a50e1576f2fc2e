(** Shape of the limits found by any binning method on data inside the axis range. *)
From Verif Require Import Base Numpy Spec NumpyFacts Utils UtilsProofs Binning BinProofs GreedyProofs DPProofs.
Open Scope Qc_scope.
Open Scope list_scope.

(** *** dynamic programming without any assumption on the costs *)
Lemma argmin_from_idx l : forall best bi i, (bi < i)%nat -> (snd (argmin_from best bi i l) < i + length l)%nat.
Proof.
  induction l as [|[a|] l IH]; intros best bi i H; simpl; [lia| |lia].
  destruct (a <? best); [specialize (IH a i (S i) ltac:(lia))|specialize (IH best bi (S i) ltac:(lia))]; lia.
Qed.
Lemma np_min_argmin_idx l p : np_min_argmin l = Ok p -> (snd p < length l)%nat.
Proof.
  destruct l as [|[a|] l]; simpl; intros H; inversion H; subst; simpl; [|lia].
  pose proof (argmin_from_idx l a 0 1 ltac:(lia)). lia.
Qed.
Lemma dp_column_args cost K prev a : In a (snd (dp_column cost K prev)) -> (a <= K)%nat.
Proof.
  unfold dp_column. cbn [snd]. rewrite map_map. intros H. apply in_map_iff in H as (nx & <- & _).
  destruct (np_min_argmin _) as [p|] eqn:E; [|simpl; lia]. apply np_min_argmin_idx in E. rewrite map_length, seq_length in E. lia.
Qed.
Lemma dp_columns_args cost K n : forall col acc, (forall l a, In l acc -> In a l -> (a <= K)%nat) ->
  forall l a, In l (dp_columns cost K n col acc) -> In a l -> (a <= K)%nat.
Proof.
  induction n as [|n IH]; intros col acc H l a Hl Ha; simpl in Hl; [eapply H; eauto|].
  eapply IH; [|exact Hl|exact Ha]. intros l0 a0 [<-|Hin] Ha0; [exact (dp_column_args cost K col _ Ha0)|exact (H _ _ Hin Ha0)].
Qed.
Lemma backtrack_args K args : forall cur, (forall l a, In l args -> In a l -> (a <= K)%nat) -> forall x, In x (backtrack cur args) -> (x <= K)%nat.
Proof.
  induction args as [|a args IH]; intros cur H x Hx; simpl in Hx; [destruct Hx|].
  assert (Q : (nth cur a 0 <= K)%nat).
  { destruct (Nat.lt_ge_cases cur (length a)) as [L|L]; [eapply H; [now left|now apply nth_In]|]. rewrite nth_overflow by exact L. lia. }
  destruct Hx as [<-|Hx]; [exact Q|]. eapply IH; [|exact Hx]. intros l b Hl Hb. eapply H; [right; exact Hl|exact Hb].
Qed.
Lemma dp_path_le cost K x : In x (dp_path cost K) -> (x <= K)%nat.
Proof.
  unfold dp_path. cbv zeta. intros [<-|H]; [lia|]. apply in_app_or in H as [H|[<-|[]]]; [|lia].
  apply in_rev in H. eapply backtrack_args; [|exact H]. intros l a. apply dp_columns_args. intros ? ? [].
Qed.

Lemma dedup_in b l x : In x (dedup b l) -> In x l.
Proof.
  revert b; induction l as [|a l IH]; intros b; simpl; [auto|].
  destruct (match b with Some c => Nat.eqb c a | None => false end); [intros H; right; eauto|]. intros [<-|H]; [now left|right; eauto].
Qed.
Lemma dedup_adjacent l : forall a i, (S i < length (a :: dedup (Some a) l))%nat ->
  nth i (a :: dedup (Some a) l) 0%nat <> nth (S i) (a :: dedup (Some a) l) 0%nat.
Proof.
  induction l as [|b l IH]; intros a i H; simpl in H; [lia|]. cbn [dedup] in *.
  destruct (Nat.eqb_spec a b) as [E|E]; [now apply IH|].
  destruct i as [|i]; [simpl; exact E|]. simpl in H. change (nth i (b :: dedup (Some b) l) 0%nat <> nth (S i) (b :: dedup (Some b) l) 0%nat).
  apply IH. simpl. lia.
Qed.
Lemma dedup_last l : forall a, last (a :: dedup (Some a) l) 0%nat = last (a :: l) 0%nat.
Proof.
  induction l as [|b l IH]; intros a; [reflexivity|]. cbn [dedup]. destruct (Nat.eqb_spec a b) as [->|E].
  - rewrite IH. destruct l; reflexivity.
  - change (last (b :: dedup (Some b) l) 0%nat = last (b :: l) 0%nat). apply IH.
Qed.
Lemma last_nth {A} (l : list A) d : last l d = nth (length l - 1) l d.
Proof.
  induction l as [|a l IH]; [reflexivity|]. destruct l as [|b l]; [reflexivity|].
  change (last (a :: b :: l) d) with (last (b :: l) d). rewrite IH. simpl. now rewrite Nat.sub_0_r.
Qed.

Lemma mono_decr_ends l : mono_decr l = true -> l <> [] -> l@(length l - 1) <= l@0.
Proof.
  induction l as [|a l IH]; intros H N; [congruence|]. destruct l as [|b l]; [apply Qcle_refl|].
  unfold mono_decr in H. simpl in H. apply andb_prop in H as [H1 H2]. apply Qcleb_le in H1.
  specialize (IH H2 ltac:(discriminate)). simpl length in *. simpl Nat.sub in *. rewrite Nat.sub_0_r in IH.
  change (nth (S (length l)) (a :: b :: l) 0) with (nth (length l) (b :: l) 0).
  change (nth 0 (a :: b :: l) 0) with a. change (nth 0 (b :: l) 0) with b in IH. qlra.
Qed.

(** The limits handed to digitize are monotone (otherwise np.digitize raises). *)
Definition digitizable (l : list Qc) : Prop := mono_incr (add_last l EPS) = true \/ mono_decr (add_last l EPS) = true.

Definition spans (l : list Qc) (lo hi : Qc) : Prop := l@0 = lo /\ l@(length l - 1) = hi.

Lemma dp_limits_shape b m d K : (1 <= K)%nat -> b_lo b < b_hi b -> digitizable (dp_limits b m d K) ->
  let l := dp_limits b m d K in (2 <= length l)%nat /\ increasing l /\ spans l (b_lo b) (b_hi b).
Proof.
  intros HK Hlh Hd. cbv zeta. unfold dp_limits in *.
  set (path := dp_path (cost_of_move b m d K) K) in *.
  assert (P : exists q, path = (0 :: q ++ [K])%nat) by (unfold path, dp_path; cbv zeta; eauto).
  destruct P as (q & P).
  assert (D : dedup None path = (0 :: dedup (Some 0) (q ++ [K]))%nat) by (rewrite P; reflexivity).
  set (ps := dedup None path) in *.
  assert (Ple : forall i, (nth i ps 0 <= K)%nat).
  { intros i. destruct (Nat.lt_ge_cases i (length ps)) as [L|L]; [|rewrite nth_overflow by exact L; lia].
    apply (dp_path_le (cost_of_move b m d K) K). apply (dedup_in None). apply nth_In. exact L. }
  assert (Adj : forall i, (S i < length ps)%nat -> nth i ps 0%nat <> nth (S i) ps 0%nat) by (rewrite D; apply dedup_adjacent).
  assert (Last : nth (length ps - 1) ps 0%nat = K).
  { rewrite <- last_nth, D, dedup_last, app_comm_cons. apply last_last. }
  assert (First : nth 0 ps 0%nat = 0%nat) by (rewrite D; reflexivity).
  assert (L2 : (2 <= length ps)%nat).
  { destruct ps as [|a [|a' ps']]; simpl in *; [lia|lia|lia]. }
  set (l := map (position b K) ps) in *.
  assert (Ll : length l = length ps) by apply map_length.
  assert (Nl : forall i, (i < length l)%nat -> l@i = grid (b_lo b) (b_hi b) K (nth i ps 0%nat)).
  { intros i Hi. unfold l. rewrite (nth_map_in _ _ _ 0%nat) by lia. apply position_grid. }
  assert (F0 : l@0 = b_lo b) by (rewrite Nl, First by lia; apply grid_0).
  assert (FL : l@(length l - 1) = b_hi b) by (rewrite Nl by lia; rewrite Ll, Last; now apply grid_K).
  split; [lia|]. split; [|split; assumption].
  pose proof EPS_pos as EP.
  destruct Hd as [Hd|Hd].
  2:{ apply mono_decr_ends in Hd; [|intros E; apply (f_equal (@length Qc)) in E; rewrite add_last_length in E; simpl in E; lia].
      rewrite !add_last_length, !add_last_nth in Hd by lia. rewrite Nat.eqb_refl in Hd.
      destruct (Nat.eqb_spec 0 (length l - 1)); [lia|]. rewrite F0, FL in Hd. qlra. }
  apply mono_incr_iff in Hd. apply increasing_adj. intros i Hi.
  destruct (Nat.eq_dec (S i) (length l - 1)) as [E|E].
  - rewrite E, FL. rewrite Nl by lia. rewrite <- (grid_K (b_lo b) (b_hi b) K HK) at 2. apply grid_lt; auto.
    pose proof (Ple i). specialize (Adj i ltac:(lia)). rewrite <- Last in *. rewrite <- Ll in *. rewrite E in *. lia.
  - specialize (Hd i (S i) ltac:(lia)). rewrite add_last_length in Hd. specialize (Hd ltac:(lia)).
    rewrite !add_last_nth in Hd by lia. destruct (Nat.eqb_spec i (length l - 1)); [lia|]. destruct (Nat.eqb_spec (S i) (length l - 1)); [lia|].
    rewrite !Nl in * by lia. specialize (Adj i ltac:(lia)).
    destruct (Nat.lt_ge_cases (nth i ps 0%nat) (nth (S i) ps 0%nat)) as [G|G]; [now apply grid_lt|].
    assert (grid (b_lo b) (b_hi b) K (nth (S i) ps 0%nat) < grid (b_lo b) (b_hi b) K (nth i ps 0%nat)) by (apply grid_lt; auto; lia). qlra.
Qed.

Lemma two_limits lo hi : lo < hi -> (2 <= length [lo; hi])%nat /\ increasing [lo; hi] /\ spans [lo; hi] lo hi.
Proof.
  intros H. split; [simpl; lia|]. split; [|split; reflexivity]. apply increasing_adj. intros i Hi. simpl in Hi.
  destruct i; [exact H|lia].
Qed.

Definition bins_pos (mth : method) : Prop := match mth with MFixed n _ _ => (1 <= n)%nat | _ => True end.
Definition is_fixed (mth : method) : Prop := match mth with MFixed _ _ _ => True | MStr s => s = "fixed"%string | _ => False end.

(** The limits are those of a categorical feature, or span the whole axis range. *)
Definition cat_limits_of (b : binner) (l : list Qc) : Prop :=
  (2 <= length (unique (b_xs b)))%nat /\ cat_limits (unique (b_xs b)) = Ok l.

Lemma cat_usable b l : cat_limits_of b l -> (2 <= length l)%nat /\ increasing l /\ forall x, In x (b_xs b) -> covered l x.
Proof.
  intros (H2 & E). destruct (cat_limits_strict _ l H2 (unique_increasing _) E) as (L & Il & Hin).
  split; [lia|]. split; [exact Il|]. intros x Hx. apply unique_in in Hx. apply (In_nth _ _ 0) in Hx as (j & Hj & <-).
  destruct (Hin j Hj) as (A & B). split.
  - destruct j as [|j]; [qlra|]. pose proof (Il 0%nat (S j) ltac:(lia) ltac:(lia)). qlra.
  - rewrite L. replace (S (length (unique (b_xs b))) - 1)%nat with (length (unique (b_xs b))) by lia.
    destruct (Nat.eq_dec (S j) (length (unique (b_xs b)))) as [<-|]; [qlra|].
    pose proof (Il (S j) (length (unique (b_xs b))) ltac:(lia) ltac:(lia)). qlra.
Qed.
Lemma cat_limits_two u l : cat_limits u = Ok l -> (2 <= length u)%nat.
Proof.
  unfold cat_limits. cbv zeta. intros H. apply bind_ok in H as (? & H1 & H). apply bind_ok in H as (? & H2 & H).
  apply (getn_inv _ _ _ 0) in H2 as [H2 _]. rewrite diffs_length in H2. lia.
Qed.
Lemma is_categorical_inv b mp cl l : is_categorical b mp cl = Ok (Some (LArr l)) -> (length (unique (b_xs b)) <= cl)%nat /\ cat_limits_of b l.
Proof.
  unfold is_categorical. destruct (Nat.leb_spec (length (unique (b_xs b))) cl) as [L|]; [|discriminate]. intros H.
  apply bind_ok in H as (l' & H1 & H). split; [exact L|].
  destruct (all_bins (bin_valid b mp) l'); inversion H; subst. split; [eapply cat_limits_two; eauto|exact H1].
Qed.
Lemma is_categorical_none_inv b mp cl : is_categorical b mp cl = Ok None -> (cl < length (unique (b_xs b)))%nat.
Proof.
  unfold is_categorical. destruct (Nat.leb_spec (length (unique (b_xs b))) cl) as [L|]; [|auto]. intros H.
  apply bind_ok in H as (l' & H1 & H). destruct (all_bins (bin_valid b mp) l'); discriminate.
Qed.

Lemma fixed_find_inv b n mp cl l : fixed_find b n mp cl = Ok (LArr l) ->
  (exists m, mp = Some m) /\
  (((length (unique (b_xs b)) <= cl)%nat /\ cat_limits_of b l) \/
   ((cl < length (unique (b_xs b)))%nat /\ l = linspace (b_lo b) (b_hi b) (n + 1))).
Proof.
  unfold fixed_find. intros H. apply bind_ok in H as (nv & Hn & H).
  destruct mp as [m|]; [|discriminate]. split; [eauto|]. apply bind_ok in H as (ct & Hc & H).
  destruct ct as [ls|].
  - left. inversion H; subst. eapply is_categorical_inv; eauto.
  - right. split; [eapply is_categorical_none_inv; eauto|]. cbv zeta in H. destruct (all_bins _ _); inversion H; reflexivity.
Qed.

Lemma find_limits_shape b mth l : bins_pos mth -> b_lo b < b_hi b ->
  (forall x, In x (b_xs b) -> b_lo b <= x <= b_hi b) -> (is_fixed mth \/ length (b_eff b) = length (b_xs b)) ->
  find_limits_b b mth = Ok (LArr l) -> digitizable l ->
  (2 <= length l)%nat /\ increasing l /\ (forall x, In x (b_xs b) -> covered l x) /\
  (((length (unique (b_xs b)) <= method_cat_limit mth)%nat /\ cat_limits_of b l) \/
   ((method_cat_limit mth < length (unique (b_xs b)))%nat /\ spans l (b_lo b) (b_hi b))).
Proof.
  intros HB Hlh Hin HE H HD.
  assert (SP : forall l, spans l (b_lo b) (b_hi b) -> forall x, In x (b_xs b) -> covered l x).
  { intros l0 (A & B) x Hx. unfold covered. rewrite A, B. now apply Hin. }
  assert (FX : forall n mp cl, (1 <= n)%nat -> fixed_find b n mp cl = Ok (LArr l) ->
     (2 <= length l)%nat /\ increasing l /\ (forall x, In x (b_xs b) -> covered l x) /\
     (((length (unique (b_xs b)) <= cl)%nat /\ cat_limits_of b l) \/ ((cl < length (unique (b_xs b)))%nat /\ spans l (b_lo b) (b_hi b)))).
  { intros n mp cl Hn F. destruct (fixed_find_inv _ _ _ _ _ F) as (_ & [(L & C)|(L & ->)]).
    - destruct (cat_usable b l C) as (A & B & D). auto 10.
    - assert (S : spans (linspace (b_lo b) (b_hi b) (n + 1)) (b_lo b) (b_hi b)).
      { split; [apply linspace_first; lia|]. rewrite linspace_length. apply linspace_last. lia. }
      rewrite linspace_length. split; [lia|]. split; [now apply linspace_increasing|]. split; [now apply SP|]. auto 10. }
  assert (GR : length (b_eff b) = length (b_xs b) -> forall n mp d cl, greedy_find b n d mp cl = Ok (LArr l) ->
     (2 <= length l)%nat /\ increasing l /\ (forall x, In x (b_xs b) -> covered l x) /\
     (((length (unique (b_xs b)) <= cl)%nat /\ cat_limits_of b l) \/ ((cl < length (unique (b_xs b)))%nat /\ spans l (b_lo b) (b_hi b)))).
  { intros He n mp d cl F. unfold greedy_find in F. apply bind_ok in F as (nv & Hn & F).
    destruct nv; [discriminate|]. apply bind_ok in F as (ct & Hc & F). destruct ct as [ls|].
    - inversion F; subst. destruct (is_categorical_inv _ _ _ _ Hc) as (L & C). destruct (cat_usable b l C) as (A & B & D). auto 10.
    - pose proof (is_categorical_none_inv _ _ _ Hc) as L. destruct mp as [m|]; [|discriminate].
      destruct (only_one_bin_possible b m) eqn:O.
      + inversion F; subst. destruct (two_limits _ _ Hlh) as (A & B & S). auto 10.
      + simpl in Hn. injection Hn as Hn. apply orb_false_elim in Hn as [N1 N2].
        apply Nat.eqb_neq in N1. apply Nat.ltb_ge in N2.
        destruct n as [|n]; [simpl in F; discriminate|].
        assert (U : (1 < length (unique (b_xs b)))%nat).
        { destruct (length (unique (b_xs b))) as [|[|k]] eqn:Q; [|congruence|lia]. lia. }
        destruct (greedy_find_ok b (S n) d m cl ltac:(lia) Hlh He Hin L U N2 O) as (l2 & F2 & G & _).
        unfold greedy_find in F2. simpl none_valid_binning in F2. unfold bind at 1 in F2.
        replace (Nat.eqb (length (unique (b_xs b))) 1) with false in F2 by (symmetry; now apply Nat.eqb_neq).
        replace (Nat.ltb (length (b_xs b)) m) with false in F2 by (symmetry; now apply Nat.ltb_ge).
        cbn [orb] in F2. rewrite Hc in F2. unfold bind at 1 in F2. rewrite O in F2. rewrite F in F2. injection F2 as <-.
        destruct (grid_binning_shape _ _ (S n) _ Hlh ltac:(lia) G) as (I & L2 & A & B & _). 
        assert (S : spans l (b_lo b) (b_hi b)) by (split; assumption). auto 10. }
  assert (DP : length (b_eff b) = length (b_xs b) -> forall n mp d cl, dp_find b n mp d cl = Ok (LArr l) ->
     (2 <= length l)%nat /\ increasing l /\ (forall x, In x (b_xs b) -> covered l x) /\
     (((length (unique (b_xs b)) <= cl)%nat /\ cat_limits_of b l) \/ ((cl < length (unique (b_xs b)))%nat /\ spans l (b_lo b) (b_hi b)))).
  { intros He n mp d cl F. unfold dp_find in F. apply bind_ok in F as (nv & Hn & F).
    destruct nv; [discriminate|]. apply bind_ok in F as (ct & Hc & F). destruct ct as [ls|].
    - inversion F; subst. destruct (is_categorical_inv _ _ _ _ Hc) as (L & C). destruct (cat_usable b l C) as (A & B & D). auto 10.
    - pose proof (is_categorical_none_inv _ _ _ Hc) as L. destruct mp as [m|]; [|discriminate].
      destruct (only_one_bin_possible b m) eqn:O.
      + inversion F; subst. destruct (two_limits _ _ Hlh) as (A & B & S). auto 10.
      + destruct n as [|[|n]]; [discriminate| |].
        * inversion F; subst. destruct (two_limits _ _ Hlh) as (A & B & S). auto 10.
        * inversion F as [F']. rewrite <- F' in *. destruct (dp_limits_shape b m d (S (S n)) ltac:(lia) Hlh HD) as (A & B & S). auto 10. }
  destruct mth as [s|n mp cl|n mp d cl|n mp d cl]; simpl in H, HB, HE |- *.
  - destruct (String.eqb_spec s "fixed") as [->|N1]; [eapply FX; [|exact H]; lia|].
    destruct HE as [HE|HE]; [congruence|].
    destruct (String.eqb_spec s "greedy") as [->|N2]; [eapply GR; eauto|].
    destruct (String.eqb_spec s "dp") as [->|N3]; [eapply DP; eauto|discriminate].
  - eapply FX; eauto.
  - destruct HE as [[]|HE]. eapply GR; eauto.
  - destruct HE as [[]|HE]. eapply DP; eauto.
Qed.
