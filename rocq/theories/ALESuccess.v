(** When ALE.fit / RHALE.fit succeed (C53). *)
From Verif Require Import Base Numpy Spec NumpyFacts Utils UtilsProofs FillProofs AccProofs LocalProofs ParamsProofs
  Helpers Integrate HelpersProofs Binning BinProofs GreedyProofs DPProofs LimitsProofs GlobalALE ALEState ALEHist ALEFit ALEProps.
Open Scope Qc_scope.
Open Scope list_scope.

Lemma sumn_le_one l : (forall x, In x l -> (x <= 1)%nat) -> (sumn l <= length l)%nat.
Proof. induction l as [|a l IH]; intros H; simpl; [lia|]. pose proof (H a (or_introl eq_refl)). specialize (IH (fun x Hx => H x (or_intror Hx))). lia. Qed.

(** more points than bins: some bin holds two *)
Lemma pigeonhole l xs : (2 <= length l)%nat -> increasing l -> (forall x, In x xs -> covered l x) -> (length l - 1 < length xs)%nat ->
  two_in_a_bin l xs.
Proof.
  intros L2 I C H. destruct (existsb (fun k => Nat.leb 2 (count (in_bin l k) xs)) (seq 0 (length l - 1))) eqn:E.
  - apply existsb_exists in E as (k & Hk & Q). apply in_seq in Hk. apply Nat.leb_le in Q. exists k. split; [lia|exact Q].
  - exfalso. assert (S : sumn (map (fun k => count (in_bin l k) xs) (seq 0 (length l - 1))) = length xs).
    { apply (sumn_count (in_bin l)). intros x Hx. apply in_bin_eqb; auto. }
    assert (B : (sumn (map (fun k => count (in_bin l k) xs) (seq 0 (length l - 1))) <= length (map (fun k => count (in_bin l k) xs) (seq 0 (length l - 1))))%nat).
    { apply sumn_le_one. intros n Hn. apply in_map_iff in Hn as (k & <- & Hk).
      destruct (Nat.leb_spec 2 (count (in_bin l k) xs)) as [Q|Q]; [|lia].
      exfalso. assert (T : existsb (fun k => Nat.leb 2 (count (in_bin l k) xs)) (seq 0 (length l - 1)) = true).
      { apply existsb_exists. exists k. split; [exact Hk|now apply Nat.leb_le]. }
      congruence. }
    rewrite map_length, seq_length in B. lia.
Qed.

Lemma populated_0 xs l : populated xs 0 l. Proof. intros k _. lia. Qed.

Lemma fixed_default_found b : (2 <= length (unique (b_xs b)))%nat ->
  exists l, fixed_find b 20 (Some 0%nat) 15 = Ok (LArr l) /\ (2 <= length l <= 21)%nat.
Proof.
  intros H. destruct (Nat.le_gt_cases (length (unique (b_xs b))) 15) as [L|L].
  - destruct (find_limits_cat b (MFixed 20 (Some 0%nat) 15) 0 I eq_refl H L) as (l & Ll & _ & _ & F & _).
    exists l. split; [|lia]. apply F. intros v _. lia.
  - exists (linspace (b_lo b) (b_hi b) 21). rewrite linspace_length. split; [|lia].
    destruct (fixed_find_cont b 20 0 15 L) as [[P E]|[P E]]; [exact E|]. exfalso. apply P, populated_0.
Qed.
Lemma greedy_default_found b : b_lo b < b_hi b -> length (b_eff b) = length (b_xs b) -> (forall x, In x (b_xs b) -> b_lo b <= x <= b_hi b) ->
  (2 <= length (unique (b_xs b)))%nat ->
  exists l, greedy_find b 100 (Q2Qc (3#10)) (Some 0%nat) 15 = Ok (LArr l) /\ (2 <= length l <= 101)%nat.
Proof.
  intros Hlh He Hin H. destruct (Nat.le_gt_cases (length (unique (b_xs b))) 15) as [L|L].
  - destruct (find_limits_cat b (MGreedy 100 (Some 0%nat) (Q2Qc (3#10)) 15) 0 I eq_refl H L) as (l & Ll & _ & _ & F & _).
    exists l. split; [|lia]. apply F. intros v _. lia.
  - destruct (only_one_bin_possible b 0) eqn:O.
    + exists [b_lo b; b_hi b]. split; [|simpl; lia]. unfold greedy_find, none_valid_binning. unfold bind at 1.
      destruct (Nat.eqb_spec (length (unique (b_xs b))) 1); [lia|]. simpl orb. cbv iota. rewrite is_categorical_none by exact L. unfold bind at 1. now rewrite O.
    + destruct (greedy_find_ok b 100 (Q2Qc (3#10)) 0 15 ltac:(lia) Hlh He Hin L ltac:(lia) ltac:(lia) O) as (l & F & G & _).
      exists l. split; [exact F|]. destruct (grid_binning_shape _ _ 100 _ Hlh ltac:(lia) G) as (I & L2 & A & B & S).
      split; [lia|]. destruct G as (mid & SS & ->). rewrite map_length.
      set (pa := (0 :: mid ++ [100])%nat) in *.
      assert (N : NoDup pa).
      { clear -SS. induction SS as [|x xs S IH F]; constructor; auto. intros Hx. rewrite Forall_forall in F. specialize (F x Hx). lia. }
      assert (Z : nth (length pa - 1) pa 0%nat = 100%nat).
      { rewrite <- last_nth. unfold pa. rewrite app_comm_cons. apply last_last. }
      assert (Q : forall i, In i pa -> (i <= 100)%nat).
      { intros i Hi. apply (In_nth _ _ 0%nat) in Hi as (j & Hj & <-).
        destruct (Nat.eq_dec j (length pa - 1)%nat) as [->|Nj]; [lia|].
        pose proof (StronglySorted_nth _ SS j (length pa - 1)%nat ltac:(lia) ltac:(lia)). lia. }
      assert (LL : (length pa <= length (seq 0 101))%nat).
      { apply NoDup_incl_length; [exact N|]. intros i Hi. apply in_seq. specialize (Q i Hi). lia. }
      rewrite seq_length in LL. exact LL.
Qed.

Section Obj.
Variable c : config.
Variable f : nat.
Hypothesis Hf : (f < dim (c_data c))%nat.
Hypothesis Hlo : (f < length (c_mins c))%nat.
Hypothesis Hhi : (f < length (c_maxs c))%nat.
Hypothesis Hlh : lo_of c f < hi_of c f.

Lemma kept_getcol : getcol (kept c (lo_of c f) (hi_of c f) f) f = Ok (fit_xs c f).
Proof. unfold getcol. change (dim (kept c (lo_of c f) (hi_of c f) f)) with (dim (c_data c)). destruct (Nat.ltb_spec f (dim (c_data c))); [reflexivity|lia]. Qed.

Lemma kept_binner E : make_binner (kept c (lo_of c f) (hi_of c f) f) E f (Some (c_mins c, c_maxs c))
  = Ok (mkB (fit_xs c f) (match E with Some e => col e f | None => [] end) (lo_of c f) (hi_of c f)).
Proof.
  unfold make_binner. rewrite (getn_ok _ _ 0) by exact Hlo. unfold bind at 2. rewrite (getn_ok _ _ 0) by exact Hhi. unfold bind at 1 2. rewrite kept_getcol. reflexivity.
Qed.

(** ALE with a row-wise model: the outcome of fitting once limits are found. *)
Lemma ale_fit_outcome g n mp cl l : c_model c = map g -> (1 <= n)%nat ->
  fixed_find (mkB (fit_xs c f) [] (lo_of c f) (hi_of c f)) n mp cl = Ok (LArr l) ->
  (two_in_a_bin l (fit_xs c f) -> exists p, ale_fit_feature c f (MFixed n mp cl) = Ok p) /\
  (~ two_in_a_bin l (fit_xs c f) -> ale_fit_feature c f (MFixed n mp cl) = Raise ValueError).
Proof.
  intros Hm Hn F.
  assert (SH : (2 <= length l)%nat /\ increasing l /\ forall x, In x (fit_xs c f) -> covered l x).
  { destruct (fixed_find_inv _ _ _ _ _ F) as (_ & [(_ & C)|(L & ->)]); [now apply (cat_usable _ _ C)|]. cbn [b_lo b_hi b_xs] in *.
    rewrite linspace_length. split; [lia|]. split; [now apply linspace_increasing|]. intros x Hx. apply fit_xs_in_range in Hx.
    unfold covered. rewrite linspace_first, linspace_length, linspace_last by lia. exact Hx. }
  destruct SH as (L2 & I & C).
  assert (EQ : rows (kept c (lo_of c f) (hi_of c f) f) <> [] -> exists es, length es = length (fit_xs c f) /\
      ale_fit_feature c f (MFixed n mp cl) = compute_ale_params (fit_xs c f) es (add_last l EPS)).
  { intros Hne. unfold ale_fit_feature. unfold getcol. destruct (Nat.ltb_spec f (dim (c_data c))); [|lia]. unfold bind at 1.
    rewrite (getn_ok _ _ 0) by exact Hlo. unfold bind at 1. rewrite (getn_ok _ _ 0) by exact Hhi. unfold bind at 1. cbv zeta.
    fold (lo_of c f) (hi_of c f). unfold bind at 1. unfold find_limits. rewrite kept_binner. unfold bind at 2. cbn [find_limits_b]. rewrite F. unfold bind at 1.
    rewrite Hm, (compute_local_effects_eq (kept c (lo_of c f) (hi_of c f) f) g l f); [|exact Hf|exact Hne|exact L2|exact I|].
    - unfold bind at 1. eexists. split; [|reflexivity]. rewrite map_length. unfold fit_xs, col. now rewrite map_length.
    - intros r Hr. apply C. unfold fit_xs, col. apply in_map_iff. eauto. }
  assert (TW : forall xs, (forall x, In x xs -> covered l x) -> (two_in_a_bin (add_last l EPS) xs <-> two_in_a_bin l xs)).
  { intros xs Cx. assert (B : forall k, (k < length l - 1)%nat -> count (in_bin (add_last l EPS) k) xs = count (in_bin l k) xs).
    { intros k Hk. unfold count. f_equal. clear -Cx L2 I Hk. induction xs as [|x xs IH]; [reflexivity|]. simpl.
      rewrite in_bin_add_last by (auto; apply Cx; now left). destruct (in_bin l k x); rewrite IH by (intros y Hy; apply Cx; now right); reflexivity. }
    unfold two_in_a_bin. rewrite add_last_length. split; intros (k & Hk & Q); exists k; (split; [exact Hk|]); rewrite ?B in * by exact Hk; exact Q. }
  assert (I' : increasing (add_last l EPS)) by (apply add_last_increasing; [pose proof EPS_pos; qlra|exact I]).
  assert (C' : forall x, In x (fit_xs c f) -> covered (add_last l EPS) x) by (intros x Hx; apply covered_add_last; auto).
  assert (NE : rows (kept c (lo_of c f) (hi_of c f) f) <> []).
  { intros E. destruct (fixed_find_inv _ _ _ _ _ F) as (_ & [(_ & (Q & _))|(L & _)]); cbn [b_xs] in *; unfold fit_xs in *; rewrite E in *; simpl in *; lia. }
  destruct (EQ NE) as (es & LE & ->). split; intros T.
  - apply ale_params_ok; auto; [rewrite add_last_length; exact L2|]. now apply TW.
  - apply ale_params_raise; auto; [rewrite add_last_length; exact L2|]. intros Q. apply T. now apply TW.
Qed.

Lemma ale_default_eq : ale_fit_feature c f (MStr "fixed") = ale_fit_feature c f (MFixed 20 (Some 0%nat) 15).
Proof. reflexivity. Qed.

Lemma fit_xs_nonempty_unique : (2 <= length (unique (fit_xs c f)))%nat -> fit_xs c f <> [].
Proof. intros H E. rewrite E in H. simpl in H. lia. Qed.

Lemma ale_default_succeeds g : c_model c = map g -> (2 <= length (unique (fit_xs c f)))%nat -> (20 < length (fit_xs c f))%nat ->
  exists p, ale_fit_feature c f (MStr "fixed") = Ok p.
Proof.
  intros Hm H2 H20. destruct (fixed_default_found (mkB (fit_xs c f) [] (lo_of c f) (hi_of c f)) H2) as (l & F & L).
  rewrite ale_default_eq. destruct (ale_fit_outcome g 20 (Some 0%nat) 15 l Hm ltac:(lia) F) as (S & _). apply S.
  assert (SH : (2 <= length l)%nat /\ increasing l /\ forall x, In x (fit_xs c f) -> covered l x).
  { destruct (fixed_find_inv _ _ _ _ _ F) as (_ & [(_ & C)|(Q & ->)]); [now apply (cat_usable _ _ C)|]. cbn [b_lo b_hi b_xs] in *.
    rewrite linspace_length. split; [lia|]. split; [now apply linspace_increasing|]. intros x Hx. apply fit_xs_in_range in Hx.
    unfold covered. rewrite linspace_first, linspace_length, linspace_last by lia. exact Hx. }
  destruct SH as (A & B & C). apply pigeonhole; auto. lia.
Qed.

(** RHALE *)
Lemma rhale_fit_outcome E e m l : kept_effects c (lo_of c f) (hi_of c f) f E = Ok e -> bins_pos m ->
  find_limits_b (mkB (fit_xs c f) (col e f) (lo_of c f) (hi_of c f)) m = Ok (LArr l) -> digitizable l ->
  (two_in_a_bin l (fit_xs c f) -> exists p, rhale_fit_feature c E f m = Ok p) /\
  (~ two_in_a_bin l (fit_xs c f) -> rhale_fit_feature c E f m = Raise ValueError).
Proof.
  intros He BP F D.
  assert (LE : length (col e f) = length (fit_xs c f)).
  { unfold fit_xs, col. rewrite !map_length. eapply kept_effects_length; eauto. }
  destruct (find_limits_shape (mkB (fit_xs c f) (col e f) (lo_of c f) (hi_of c f)) m l BP Hlh (fun x => fit_xs_in_range c f x) (or_intror LE) F D) as (L2 & I & C & _).
  assert (FL : find_limits (kept c (lo_of c f) (hi_of c f) f) (Some e) f (c_mins c, c_maxs c) m = Ok (LArr l)).
  { unfold find_limits. destruct m as [s| | |]; rewrite kept_binner; try exact F.
    assert (K : (String.eqb s "dp" || String.eqb s "greedy" || String.eqb s "fixed")%bool = true).
    { unfold find_limits_b in F. destruct (String.eqb s "fixed"), (String.eqb s "greedy"), (String.eqb s "dp"); try discriminate; reflexivity. }
    rewrite K. exact F. }
  assert (EQ : rhale_fit_feature c E f m = compute_ale_params (fit_xs c f) (col e f) l).
  { unfold rhale_fit_feature. unfold getcol. destruct (Nat.ltb_spec f (dim (c_data c))); [|lia]. unfold bind at 1.
    rewrite (getn_ok _ _ 0) by exact Hlo. unfold bind at 1. rewrite (getn_ok _ _ 0) by exact Hhi. unfold bind at 1. cbv zeta.
    fold (lo_of c f) (hi_of c f). rewrite He. unfold bind at 1. rewrite FL. reflexivity. }
  rewrite EQ. split; intros T; [now apply ale_params_ok|now apply ale_params_raise].
Qed.

Lemma increasing_digitizable l : l <> [] -> increasing l -> digitizable l.
Proof.
  intros N I. left. apply mono_incr_iff. apply increasing_weak. apply add_last_increasing; [pose proof EPS_pos; qlra|exact I].
Qed.

Lemma rhale_default_succeeds E : length E = length (rows (c_data c)) -> (2 <= length (unique (fit_xs c f)))%nat -> (100 < length (fit_xs c f))%nat ->
  exists p, rhale_fit_feature c E f (MStr "greedy") = Ok p.
Proof.
  intros LE H2 H100.
  assert (He : exists e, kept_effects c (lo_of c f) (hi_of c f) f E = Ok e).
  { unfold kept_effects. rewrite LE, Nat.eqb_refl. eauto. }
  destruct He as (e & He).
  assert (Le : length (col e f) = length (fit_xs c f)).
  { unfold fit_xs, col. rewrite !map_length. eapply kept_effects_length; eauto. }
  destruct (greedy_default_found (mkB (fit_xs c f) (col e f) (lo_of c f) (hi_of c f)) Hlh Le (fun x => fit_xs_in_range c f x) H2) as (l & F & L).
  assert (SH : increasing l /\ forall x, In x (fit_xs c f) -> covered l x).
  { pose proof F as F'. unfold greedy_find in F'. apply bind_ok in F' as (nv & Hn & F').
    destruct nv; [discriminate|]. apply bind_ok in F' as (ct & Hc & F'). destruct ct as [ls|].
    - inversion F'; subst. destruct (is_categorical_inv _ _ _ _ Hc) as (_ & C). destruct (cat_usable _ l C) as (A & B & D). auto.
    - pose proof (is_categorical_none_inv _ _ _ Hc) as Lc. cbn [b_xs b_eff b_lo b_hi] in *. destruct (only_one_bin_possible _ 0) eqn:O.
      + inversion F'; subst. destruct (two_limits _ _ Hlh) as (A & B & S). split; [exact B|]. intros x Hx. apply fit_xs_in_range in Hx. exact Hx.
      + destruct (greedy_find_ok (mkB (fit_xs c f) (col e f) (lo_of c f) (hi_of c f)) 100 (Q2Qc (3#10)) 0 15 ltac:(lia) Hlh Le (fun x => fit_xs_in_range c f x) Lc ltac:(simpl; lia) ltac:(lia) O) as (l2 & F2 & G & _).
        rewrite F in F2. injection F2 as <-. destruct (grid_binning_shape _ _ 100 _ Hlh ltac:(lia) G) as (I & L2 & A & B & _). cbn [b_lo b_hi] in *.
        split; [exact I|]. intros x Hx. apply fit_xs_in_range in Hx. unfold covered. rewrite A, B. exact Hx. }
  destruct SH as (I & C).
  destruct (rhale_fit_outcome E e (MStr "greedy") l He Logic.I F (increasing_digitizable l ltac:(intros ->; simpl in L; lia) I)) as (S & _).
  apply S. apply pigeonhole; auto; lia.
Qed.
End Obj.

(** *** the whole fit call *)
Lemma fit_feature_eff c st f m : c_kind c = KALE -> fit_feature c st f m = (st, ale_fit_feature c f m).
Proof. intros H. unfold fit_feature. now rewrite H. Qed.

Lemma fit_one_succeeds c st f m ce st1 p : bins_pos m -> lo_of c f < hi_of c f -> fit_feature c st f m = (st1, Ok p) ->
  exists st', fit_one c st f m ce = (st', Ok tt).
Proof.
  intros BP LH F. destruct (fit_feature_usable c st f m st1 p BP LH F) as (es & l & U & P).
  destruct (fit_feature_limits c st f m st1 p F) as (_ & L1 & L2). unfold fit_one. rewrite F.
  destruct ce; [eauto| |]; (rewrite (norm_const_ok c p f _ (acc_curve l (ap_effect p)) L1 L2) by (try discriminate; intros zs; eapply usable_unnorm; eauto)); eauto.
Qed.
