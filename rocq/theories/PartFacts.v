(** PartFacts: consequences for choose_important_splits, the tree, successful searches, DataTransformer. *)
From Verif Require Import Base Numpy Spec NumpyFacts Utils PartSpec Partition PartProofs PartSearch PartTree.
Open Scope Qc_scope.
Open Scope list_scope.

(** * choose_important_splits *)
Lemma count_id_all (l : list bool) : count (fun b => b) l = length l -> forall b, In b l -> b = true.
Proof.
  unfold count. induction l as [|a l IH]; simpl; intros H b Hb; [contradiction|].
  pose proof (filter_length_le (fun b => b) l). destruct a; simpl in H; [|lia].
  destruct Hb as [<-|Hb]; [reflexivity|]. apply IH; [lia|assumption].
Qed.
Lemma count_id_none (l : list bool) : count (fun b => b) l = 0%nat -> forall b, In b l -> b = false.
Proof.
  unfold count. induction l as [|a l IH]; simpl; intros H b Hb; [contradiction|].
  destruct a; simpl in H; [lia|]. destruct Hb as [<-|Hb]; [reflexivity|]. now apply IH.
Qed.
Lemma first_false (l : list bool) a : count (fun b => b) l <> length l ->
  exists k, (k < length l)%nat /\ hd 0%nat (map fst (filter (fun p => negb (snd p)) (combine (seq a (length l)) l))) = (a + k)%nat /\
    nth k l true = false /\ forall m, (m < k)%nat -> nth m l false = true.
Proof.
  revert a. induction l as [|b l IH]; intros a H; [contradiction H; reflexivity|]. destruct b.
  - destruct (IH (S a)) as (k & K1 & K2 & K3 & K4).
    { intros E. apply H. unfold count in *. simpl. now rewrite E. }
    exists (S k). split; [simpl; lia|]. split; [simpl; rewrite K2; lia|]. split; [assumption|].
    intros [|m] Hm; [reflexivity|]. apply K4. lia.
  - exists 0%nat. split; [simpl; lia|]. split; [simpl; lia|]. split; [reflexivity|]. intros; lia.
Qed.
Lemma nth_bool_indep l k d d' : (k < length l)%nat -> nth k l d = nth k l d' :> bool.
Proof. intros; now apply nth_indep. Qed.

(** The weighted heterogeneities of the levels: level 0 is the whole dataset. *)
Definition level_heters (r : root) (ss : list split) : list Qc := r_heter r :: map s_wheter ss.

Lemma choose_prefix g r ss : r_heter r <> BIG_M -> g_small_enough g <= r_heter r ->
  let h := level_heters r ss in
  exists m, choose_important_splits g (Some (r, ss)) = firstn m ss /\ (m <= length ss)%nat /\
    (forall k, (k < m)%nat -> drop_exceeds h@k h@(S k) (g_drop_thres g) = true) /\
    ((m < length ss)%nat -> drop_exceeds h@m h@(S m) (g_drop_thres g) = false).
Proof.
  intros HB HS h. unfold choose_important_splits. destruct (Qceqb_spec (r_heter r) BIG_M) as [E|_]; [contradiction|].
  destruct (Qcltb_spec (r_heter r) (g_small_enough g)) as [L|_]; [exfalso; qlra|].
  fold (level_heters r ss). fold h.
  set (valid := map _ _).
  assert (LV : length valid = length ss).
  { unfold valid, init_. rewrite map_length, combine_length, removelast_length. unfold h, level_heters. simpl. rewrite map_length. lia. }
  assert (NV : forall k d, (k < length ss)%nat -> nth k valid d = drop_exceeds h@k h@(S k) (g_drop_thres g)).
  { intros k d Hk. unfold valid. rewrite nth_map_in with (d := (0, 0)).
    2:{ rewrite <- (map_length (fun p => drop_exceeds (fst p) (snd p) (g_drop_thres g))). fold valid. lia. }
    assert (LH : length h = S (length ss)) by (unfold h, level_heters; simpl; now rewrite map_length).
    unfold init_. rewrite combine_nth_lt.
    2:{ rewrite removelast_length. lia. }
    2:{ unfold h, level_heters. simpl. now rewrite map_length. }
    rewrite nth_removelast by lia. simpl fst; simpl snd. reflexivity. }
  destruct (Nat.eqb_spec (count (fun b => b) valid) 0) as [C0|C0].
  - exists 0%nat. split; [reflexivity|]. split; [lia|]. split; [intros; lia|]. intros H0.
    rewrite <- (NV 0%nat true) by assumption. apply (count_id_none _ C0). apply nth_In. lia.
  - destruct (Nat.eqb_spec (count (fun b => b) valid) (length valid)) as [CL|CL].
    + exists (length ss). split; [now rewrite firstn_all|]. split; [lia|]. split; [|intros; lia].
      intros k Hk. rewrite <- (NV k true) by assumption. apply (count_id_all _ CL). apply nth_In. lia.
    + destruct (first_false valid 0 CL) as (k & K1 & K2 & K3 & K4). fold (enum valid) in K2. rewrite K2. simpl Nat.add.
      exists k. split; [destruct (Nat.eqb_spec k 0) as [->|]; reflexivity|]. split; [lia|]. split.
      * intros m Hm. rewrite <- (NV m false) by lia. now apply K4.
      * intros Hk. now rewrite <- (NV k true).
Qed.
Lemma drop_exceeds_iff a b t : 0 <= a -> 0 <= b -> (drop_exceeds a b t = true <-> t * a < a - b).
Proof.
  intros Ha Hb. unfold drop_exceeds. destruct (Qceqb_spec a 0) as [->|NE].
  - rewrite Qcltb_lt. split; intros H; exfalso; qlra.
  - assert (P : 0 < a). { destruct (Qcle_lt_or_eq _ _ Ha) as [|E]; [assumption|now rewrite E in NE]. }
    rewrite Qcltb_lt. now rewrite Qclt_div_iff.
Qed.
Lemma choose_is_prefix g r ss : exists m, choose_important_splits g (Some (r, ss)) = firstn m ss /\ (m <= length ss)%nat.
Proof.
  destruct (Qceqb_spec (r_heter r) BIG_M) as [E|E].
  - exists 0%nat. unfold choose_important_splits. rewrite E. change (BIG_M =? BIG_M) with true. split; [reflexivity|lia].
  - destruct (Qcltb_spec (r_heter r) (g_small_enough g)) as [L|L].
    + exists 0%nat. unfold choose_important_splits. destruct (Qceqb_spec (r_heter r) BIG_M); [contradiction|].
      destruct (Qcltb_spec (r_heter r) (g_small_enough g)); [|exfalso; qlra]. split; [reflexivity|lia].
    + destruct (choose_prefix g r ss E L) as (m & H1 & H2 & _). exists m. auto.
Qed.

(** * Weighted averages *)
Lemma sumn_succ_pos (l : list nat) : l <> [] -> (0 < sumn (map (fun m => m + 1)%nat l))%nat.
Proof. destruct l; simpl; [congruence|lia]. Qed.
Lemma qn_sumn l : qn (sumn l) = sumq (map qn l).
Proof. induction l as [|a l IH]; simpl; [apply qn_0|]. now rewrite qn_add, IH. Qed.
Lemma weighted_div sz vs : sz <> [] ->
  weighted sz vs = sumq (map (fun p => qn (fst p + 1) * snd p) (combine sz vs)) / qn (sumn (map (fun m => m + 1)%nat sz)).
Proof.
  intros H. unfold weighted. set (T := qn (sumn (map (fun m => (m + 1)%nat) sz))).
  unfold Qcdiv at 2. rewrite <- sumq_map_mulr. apply sumq_map_ext. intros p _.
  assert (T <> 0) by (apply qn_neq0, sumn_succ_pos, H). field. assumption.
Qed.
Lemma weighted_ge sz vs m : sz <> [] -> length vs = length sz -> (forall v, In v vs -> m <= v) -> m <= weighted sz vs.
Proof.
  intros H L Hv. rewrite weighted_div by assumption.
  assert (P : 0 < qn (sumn (map (fun m => (m + 1)%nat) sz))) by (apply qn_pos, sumn_succ_pos, H).
  apply Qcle_div_iff; [assumption|]. rewrite Qcmult_comm. rewrite qn_sumn, map_map.
  rewrite <- sumq_map_mulr.
  assert (E : map (fun x => qn (x + 1) * m) sz = map (fun p : nat * Qc => qn (fst p + 1) * m) (combine sz vs)).
  { rewrite <- (combine_map_fst sz vs) at 1 by congruence. now rewrite map_map. }
  rewrite E. apply sumq_le. intros [n v] Hp. simpl. apply in_combine_r in Hp. apply Qcmul_le_compat_l; [apply qn_nonneg|now apply Hv].
Qed.
Lemma weighted_entry sz vs k : length vs = length sz -> (forall v, In v vs -> 0 <= v) -> (k < length sz)%nat ->
  qn (nth k sz 0%nat + 1) / qn (sumn (map (fun m => m + 1)%nat sz)) * vs@k <= weighted sz vs.
Proof.
  intros L Hv Hk. unfold weighted. set (T := qn (sumn (map (fun m => (m + 1)%nat) sz))).
  assert (HT : 0 < T). { apply qn_pos, sumn_succ_pos. intros ->. simpl in Hk. lia. }
  assert (NN : forall x, In x (map (fun p : nat * Qc => qn (fst p + 1) / T * snd p) (combine sz vs)) -> 0 <= x).
  { intros x Hx. apply in_map_iff in Hx as ([n v] & <- & Hp). simpl. apply in_combine_r in Hp.
    apply Qcmult_le_0; [apply Qcdiv_le_0; [apply qn_nonneg|assumption]|now apply Hv]. }
  assert (G : forall l j, (forall x, In x l -> 0 <= x) -> (j < length l)%nat -> l@j <= sumq l).
  { induction l as [|x l IH]; intros j Hn Hj; simpl in Hj; [lia|]. assert (0 <= x) by (apply Hn; now left).
    assert (0 <= sumq l) by (apply sumq_nonneg; intros; apply Hn; now right). destruct j; simpl; [qlra|].
    assert (l@j <= sumq l) by (apply IH; [intros; apply Hn; now right|lia]). qlra. }
  pose proof (G _ k NN) as Q. rewrite map_length, combine_length, L, Nat.min_id in Q. specialize (Q Hk).
  rewrite nth_map_in with (d := (0%nat, 0)) in Q by (rewrite combine_length; lia).
  rewrite combine_nth_lt in Q by lia. exact Q.
Qed.
Lemma weighted_nonneg sz vs : (forall v, In v vs -> 0 <= v) -> 0 <= weighted sz vs.
Proof.
  intros Hv. unfold weighted. apply sumq_nonneg. intros x Hx. apply in_map_iff in Hx as ([n v] & <- & Hp). simpl.
  apply in_combine_r in Hp. apply Qcmult_le_0; [|now apply Hv].
  destruct sz as [|a sz]; [unfold qn at 2; simpl|].
  - replace (qn (n + 1) / qz 0) with (Q2Qc 0); [apply Qcle_refl|]. apply Qc_is_canon. rewrite this_div, this_qz. simpl. now rewrite Qmult_0_r.
  - apply Qcdiv_le_0; [apply qn_nonneg|]. apply qn_pos, sumn_succ_pos. discriminate.
Qed.

(** * A single level succeeds *)
Lemma values_nonempty X f : X <> [] -> values X f <> [].
Proof. destruct X; [congruence|discriminate]. Qed.
Lemma positions_ok g : rows (g_data g) <> [] -> length (g_foc_types g) = length (g_foc g) ->
  (forall f, In f (g_foc g) -> (f < dim (g_data g))%nat) -> exists cands, positions g = Ok cands.
Proof.
  intros HX W HF. unfold positions.
  assert (K : forall l : list (nat * ftype), (forall p, In p l -> (fst p < dim (g_data g))%nat) -> exists c, mapM (fun p => match snd p with
       | Cat => find_positions_cat (g_data g) (fst p) | Cont => find_positions_cont (g_data g) (fst p) (g_nof_splits g) end) l = Ok c).
  { induction l as [|[f t] l IH]; intros H; [exists []; reflexivity|]. simpl.
    destruct IH as [c Ec]; [intros; apply H; now right|].
    assert (Hf : (f < dim (g_data g))%nat) by (apply (H (f, t)); now left).
    assert (EC : getcol (g_data g) f = Ok (values (rows (g_data g)) f)).
    { unfold getcol. destruct (Nat.ltb_spec f (dim (g_data g))); [reflexivity|lia]. }
    pose proof (values_nonempty _ f HX) as NV.
    destruct (np_min_spec _ NV) as (lo & El & _). destruct (np_max_spec _ NV) as (hi & Eh & _).
    destruct t.
    - assert (EQ : find_positions_cat (g_data g) f = Ok (unique (values (rows (g_data g)) f))) by (unfold find_positions_cat; now rewrite EC).
      rewrite EQ, Ec. eexists. reflexivity.
    - assert (EQ : exists q, find_positions_cont (g_data g) f (g_nof_splits g) = Ok q).
      { unfold find_positions_cont. rewrite EC. unfold bind at 1. rewrite Eh. unfold bind at 1. rewrite El. eexists. reflexivity. }
      destruct EQ as [q EQ]. rewrite EQ, Ec. eexists. reflexivity. }
  apply K. intros [f t] H. apply in_combine_l in H. now apply HF.
Qed.

(** The heterogeneity of every subregion of the data exists and lies in [0, BIG_M]. *)
Definition total_heter (h : heter_func) (X : Mat) (E : option Mat) : Prop :=
  forall cs p, exists v, h (region X cs p) (option_map (fun e => region_effects X e cs p) E) = Ok v /\ 0 <= v /\ v <= BIG_M.
Lemma heterogeneities_exist h X E cs ps : total_heter h X E ->
  exists hs, heterogeneities h X E cs ps hs /\ forall v, In v hs -> 0 <= v <= BIG_M.
Proof.
  intros H. induction ps as [|p ps (hs & IH1 & IH2)]; [exists []; split; [constructor|intros v []]|].
  destruct (H cs p) as (v & E1 & E2 & E3).
  exists (v :: hs). split; [constructor; assumption|]. intros u [<-|Hu]; auto.
Qed.
Lemma heterogeneities_bounded h X E cs ps hs : total_heter h X E -> heterogeneities h X E cs ps hs -> forall v, In v hs -> 0 <= v <= BIG_M.
Proof.
  intros H F. induction F as [|p v ps hs Hv F IH]; intros u Hu; [contradiction|]. destruct Hu as [<-|Hu]; [|auto].
  destruct (H cs p) as (v' & E1 & E2 & E3). rewrite Hv in E1. injection E1 as ->. auto.
Qed.

Lemma table_ok g cs before cands : wf_regions g -> total_heter (g_heter g) (rows (g_data g)) (g_effect g) -> length before = (2 ^ length cs)%nat ->
  length cands = length (g_foc g) -> (forall i, (i < length (g_foc g))%nat -> (length (nth i cands []) <= width g)%nat) ->
  exists tbl, table g (level_regions (rows (g_data g)) cs (length cs)) (level_effects (rows (g_data g)) (g_effect g) cs (length cs)) before cands = Ok tbl.
Proof.
  intros W HT HB HL HW. unfold table.
  set (xs := level_regions _ _ _). set (ojs := level_effects _ _ _ _).
  assert (EV : forall f p t, exists v, evaluate_split (g_heter g) xs ojs before f p t = Ok v).
  { intros f p t. destruct (heterogeneities_exist (g_heter g) (rows (g_data g)) (g_effect g) (cs ++ [(f, t, p)]) (paths (S (length cs))) HT) as (hs & Hh & _).
    eexists (_, _). apply evaluate_level; [assumption..|]. exists hs. split; [exact Hh|]. split; reflexivity. }
  assert (ROW : forall f t c, (length c <= width g)%nat -> exists row, table_row g xs ojs before f t c = Ok row).
  { intros f t c Hc. unfold table_row, enum.
    assert (K : forall l a, (a + length l <= width g)%nat -> exists row, mapM (fun jp : nat * Qc => v <- evaluate_split (g_heter g) xs ojs before f (snd jp) t ;;
       (if Nat.ltb (fst jp) (width g) then Ok v else Raise IndexError)) (combine (seq a (length l)) l) = Ok row).
    { induction l as [|p l IH]; intros a Ha; [exists []; reflexivity|]. simpl.
      destruct (EV f p t) as [v Ev]. rewrite Ev. unfold bind at 2. simpl in Ha. destruct (Nat.ltb_spec a (width g)); [|lia].
      unfold bind at 1. destruct (IH (S a)) as [row Er]; [lia|]. rewrite Er. simpl. eauto. }
    apply K. lia. }
  assert (K : forall l, (forall q, In q l -> (length (snd q) <= width g)%nat) ->
     exists tbl, mapM (fun q : nat * ftype * list Qc => table_row g xs ojs before (fst (fst q)) (snd (fst q)) (snd q)) l = Ok tbl).
  { induction l as [|[[f t] c] l IH]; intros H; [exists []; reflexivity|]. simpl.
    destruct (ROW f t c) as [row Er]; [apply (H (f, t, c)); now left|]. rewrite Er. unfold bind at 1.
    destruct IH as [tbl Et]; [intros; apply H; now right|]. rewrite Et. simpl. eauto. }
  apply K. intros [[f t] c] H. apply in_combine_r in H. simpl. apply (In_nth _ _ []) in H as (i & Hi & <-). apply HW. lia.
Qed.

(** The conditions under which a search cannot fail. *)
Record search_ready (g : regions) : Prop := {
  sr_wf : wf_regions g;
  sr_rows : rows (g_data g) <> [];
  sr_foc : forall f, In f (g_foc g) -> (f < dim (g_data g))%nat;
  sr_some : g_foc g <> [];
  sr_splits : (1 <= g_nof_splits g)%nat;
  sr_types : forall f, In (f, Cat) (combine (g_foc g) (g_foc_types g)) -> (length (unique (values (rows (g_data g)) f)) <= width g)%nat;
  sr_heter : total_heter (g_heter g) (rows (g_data g)) (g_effect g) }.

Lemma cands_width g cands i : search_ready g -> positions g = Ok cands -> (i < length (g_foc g))%nat -> (1 <= length (nth i cands []) <= width g)%nat.
Proof.
  intros R H Hi. destruct (sr_wf g R) as [W _]. apply positions_inv in H as [_ H]; [|assumption]. destruct (H i Hi) as (_ & _ & T).
  destruct (nth i (g_foc_types g) Cont) eqn:Et.
  - rewrite T. split.
    + pose proof (values_nonempty _ (nth i (g_foc g) 0%nat) (sr_rows g R)) as NV.
      destruct (values (rows (g_data g)) (nth i (g_foc g) 0%nat)) as [|v vs] eqn:EV; [congruence|].
      assert (HI : In v (unique (v :: vs))) by (apply unique_in; now left).
      destruct (unique (v :: vs)); [contradiction|simpl; lia].
    + apply (sr_types g R). apply in_nth_iff with (d := (0%nat, Cont)). exists i. rewrite combine_length, W, Nat.min_id.
      split; [assumption|]. rewrite combine_nth_lt by congruence. now rewrite Et.
  - rewrite T. pose proof (sr_splits g R). unfold width. lia.
Qed.

Lemma two_pow_pos n : (0 < 2 ^ n)%nat.
Proof. pose proof (Nat.pow_nonzero 2 n). lia. Qed.

Lemma half_lt k n : (k < 2 ^ S n)%nat -> (k / 2 < 2 ^ n)%nat.
Proof. intros H. apply Nat.div_lt_upper_bound; [lia|]. simpl in H. lia. Qed.

Lemma flat_drops_head g cs before cands tbl : search_ready g -> length before = (2 ^ length cs)%nat ->
  (forall v, In v before -> 0 <= v) -> positions g = Ok cands ->
  table g (level_regions (rows (g_data g)) cs (length cs)) (level_effects (rows (g_data g)) (g_effect g) cs (length cs)) before cands = Ok tbl ->
  - BIG_M <= (flat_drops (width g) tbl)@0.
Proof.
  intros R HB HP HC HT. pose proof (sr_wf g R) as Wf. destruct Wf as [W W2].
  assert (Hw : (1 <= width g)%nat) by (pose proof (sr_splits g R); unfold width; lia).
  assert (H0 : (0 < length (g_foc g))%nat) by (pose proof (sr_some g R); destruct (g_foc g); [congruence|simpl; lia]).
  pose proof (cands_width g cands 0 R HC H0) as HW0.
  assert (HCL : length cands = length (g_foc g)) by (now apply positions_inv in HC as [? _]).
  apply table_inv in HT as [TL TT]; [|assumption..].
  change 0%nat with (0 * width g + 0)%nat. rewrite flat_drops_nth; try lia.
  2:{ intros r Hr. apply (In_nth _ _ []) in Hr as (m & Hm & <-). apply TT. lia. }
  destruct (TT 0%nat H0) as (T1 & T2 & T3). destruct (Nat.ltb_spec 0 (length (nth 0 tbl []))) as [L|L]; [|lia].
  specialize (T3 0%nat ltac:(lia)). destruct (nth 0 (nth 0 tbl []) (0, 0)) as [d w] eqn:Ec. simpl fst.
  apply evaluate_level in T3; [|split; assumption|assumption]. destruct T3 as (hs & Hh & -> & _).
  pose proof (heterogeneities_length _ _ _ _ _ _ Hh) as Lh. rewrite paths_length in Lh.
  pose proof (heterogeneities_bounded _ _ _ _ _ _ (sr_heter g R) Hh) as Bh.
  apply weighted_ge.
  - unfold sizes. intros E. apply (f_equal (@length _)) in E. rewrite map_length, paths_length in E. simpl in E. pose proof (two_pow_pos (length cs)); pose proof (two_pow_pos (S (length cs))); simpl in *; lia.
  - unfold sizes, drops. rewrite !map_length, seq_length, paths_length. assumption.
  - intros v Hv. unfold drops in Hv. apply in_map_iff in Hv as (k & <- & Hk). apply in_seq in Hk.
    assert (K1 : 0 <= before@(k / 2)) by (apply HP, nth_In; rewrite HB; apply half_lt; lia).
    assert (K2 : 0 <= hs@k <= BIG_M) by (apply Bh, nth_In; lia). qlra.
Qed.

Lemma single_level_ok g cs before : search_ready g -> length before = (2 ^ length cs)%nat -> (forall v, In v before -> 0 <= v) ->
  exists s, single_level_splits g (level_regions (rows (g_data g)) cs (length cs)) (level_effects (rows (g_data g)) (g_effect g) cs (length cs)) before = Ok s.
Proof.
  intros R HB HP. pose proof (sr_wf g R) as Wf. destruct Wf as [W W2].
  destruct (positions_ok g (sr_rows g R) W (sr_foc g R)) as [cands HC].
  pose proof (fun i => cands_width g cands i R HC) as HWd.
  assert (HCL : length cands = length (g_foc g)) by (now apply positions_inv in HC as [? _]).
  destruct (table_ok g cs before cands) as [tbl HT]; auto.
  { now apply (sr_wf g). } { apply (sr_heter g R). } { intros i Hi. now apply HWd. }
  pose proof (flat_drops_head g cs before cands tbl R HB HP HC HT) as Hhead.
  unfold single_level_splits. rewrite HC. unfold bind at 1. rewrite HT. unfold bind at 1.
  assert (Hw : (1 <= width g)%nat) by (pose proof (sr_splits g R); unfold width; lia).
  assert (H0 : (0 < length (g_foc g))%nat) by (pose proof (sr_some g R); destruct (g_foc g); [congruence|simpl; lia]).
  pose proof HT as HT'. apply table_inv in HT' as [TL TT]; [|assumption..].
  assert (HR : forall r, In r tbl -> (length r <= width g)%nat).
  { intros r Hr. apply (In_nth _ _ []) in Hr as (m & Hm & <-). apply TT. lia. }
  pose proof (flat_drops_length _ _ HR) as FL.
  destruct (argmax_ok (flat_drops (width g) tbl)) as [k Hk].
  { intros E. rewrite E in FL. simpl in FL. nia. }
  rewrite Hk. unfold bind at 1. apply argmax_spec in Hk as (K1 & K2 & K3). rewrite FL in K1.
  set (i := (k / width g)%nat). set (j := (k mod width g)%nat).
  assert (Hi : (i < length (g_foc g))%nat) by (unfold i; apply Nat.div_lt_upper_bound; nia).
  assert (Hj : (j < width g)%nat) by (apply Nat.mod_upper_bound; lia).
  assert (Ek : k = (i * width g + j)%nat) by (unfold i, j; rewrite (Nat.div_mod k (width g)) at 1 by lia; lia).
  destruct (TT i Hi) as (T1 & T2 & T3). destruct (HWd i Hi) as [HW1 HW2].
  assert (Hfill : (j < length (nth i cands []))%nat).
  { destruct (Nat.lt_ge_cases j (length (nth i cands []))) as [|GE]; [assumption|exfalso].
    assert (Hpos : (0 < k)%nat) by lia. specialize (K3 0%nat Hpos). rewrite Ek in K3.
    rewrite (flat_drops_nth (width g) tbl i j) in K3; try assumption; try lia.
    destruct (Nat.ltb_spec j (length (nth i tbl []))) as [L|L]; [lia|]. qlra. }
  rewrite (getn_ok _ _ 0%nat) by assumption. unfold bind at 1.
  rewrite (getn_ok _ _ []) by lia. unfold bind at 1. rewrite (getn_ok _ _ 0) by assumption. unfold bind at 1.
  rewrite (getn_ok _ _ Cont) by lia. unfold bind at 1.
  rewrite split_all_level. unfold bind at 1. rewrite split_effects_level by assumption. unfold bind at 1.
  set (f := nth i (g_foc g) 0%nat). set (t := nth i (g_foc_types g) Cont). set (p := nth j (nth i cands []) 0).
  destruct (heterogeneities_exist (g_heter g) (rows (g_data g)) (g_effect g) (cs ++ [(f, t, p)]) (paths (S (length cs))) (sr_heter g R)) as (hs & Hh & _).
  apply sub_heters_level in Hh. rewrite Hh. unfold bind at 1.
  assert (EC : getcol (g_data g) f = Ok (values (rows (g_data g)) f)).
  { unfold getcol. destruct (Nat.ltb_spec f (dim (g_data g))) as [|GE]; [reflexivity|]. exfalso.
    assert (f < dim (g_data g))%nat by (apply (sr_foc g R), nth_In; assumption). lia. }
  rewrite EC. unfold bind at 1. pose proof (values_nonempty _ f (sr_rows g R)) as NV.
  destruct (np_min_spec _ NV) as (lo & El & _). destruct (np_max_spec _ NV) as (hi & Eh & _). rewrite El. unfold bind at 1. rewrite Eh. unfold bind at 1.
  rewrite (getn_ok _ _ []) by lia. unfold bind at 1. rewrite (getn_ok _ _ (0, 0)) by lia. simpl. eauto.
Qed.

Lemma search_levels_ok g n : search_ready g -> forall cs acc before, length before = (2 ^ length cs)%nat -> (forall v, In v before -> 0 <= v) ->
  exists ss, search_levels g n (level_regions (rows (g_data g)) cs (length cs)) (level_effects (rows (g_data g)) (g_effect g) cs (length cs)) before acc = Ok ss.
Proof.
  intros R. induction n as [|n IH]; intros cs acc before HB HP; simpl; [eauto|].
  destruct (existsb _ _); [eauto|].
  destruct (single_level_ok g cs before R HB HP) as [s Es]. rewrite Es. unfold bind at 1.
  destruct (sr_wf g R) as [W W2]. apply single_level_inv in Es; [|assumption].
  rewrite split_effects_level by assumption. unfold bind at 1. rewrite split_all_level. unfold bind at 1.
  set (cs' := cs ++ [(s_feature s, s_type s, s_position s)]).
  replace (S (length cs)) with (length cs') by (unfold cs'; rewrite app_length; simpl; lia).
  destruct (bs_sub _ _ _ _ _ Es) as (xs2 & js2 & E1 & E2 & E3 & E4).
  rewrite split_all_level in E1. injection E1 as <-. rewrite split_effects_level in E2 by assumption. injection E2 as <-.
  apply sub_heters_level in E3. apply IH.
  - pose proof (heterogeneities_length _ _ _ _ _ _ E3) as L. rewrite paths_length in L. unfold cs'. rewrite app_length, Nat.add_1_r. exact L.
  - intros v Hv. now apply (heterogeneities_bounded _ _ _ _ _ _ (sr_heter g R) E3).
Qed.

Lemma search_ok g : search_ready g -> (g_feature g < length (g_types g))%nat -> (g_max_levels g <= length (g_foc g))%nat ->
  exists f, search_all_splits g = Ok f.
Proof.
  intros R Hf Hm. unfold search_all_splits. rewrite (getn_ok _ _ Cont) by assumption. unfold bind at 1.
  assert (K : exists f, (passert (Nat.leb (g_max_levels g) (length (g_foc g))) ;;
      h0 <- g_heter g (rows (g_data g)) (g_effect g) ;;
      ss <- search_levels g (g_max_levels g) [rows (g_data g)] (option_map (fun e => [e]) (g_effect g)) [h0] [] ;;
      match ss with [] => Ok None | _ => Ok (Some (mkRoot h0 (length (rows (g_data g))), ss)) end) = Ok f).
  { destruct (Nat.leb_spec (g_max_levels g) (length (g_foc g))); [|lia]. unfold assert_. unfold bind at 1.
    destruct (sr_heter g R [] []) as (h0 & E & P & _).
    rewrite region_nil in E. assert (EE : option_map (fun e => region_effects (rows (g_data g)) e [] []) (g_effect g) = g_effect g).
    { destruct (sr_wf g R) as [_ W]. destruct (g_effect g) as [e|]; simpl; [|reflexivity]. f_equal. now apply region_effects_nil. }
    rewrite EE in E. rewrite E. unfold bind at 1.
    pose proof (search_levels_ok g (g_max_levels g) R [] [] [h0] eq_refl) as K.
    destruct K as [ss Es]; [intros v [<-|[]]; assumption|].
    assert (E1 : level_regions (rows (g_data g)) [] (length (@nil cond)) = [rows (g_data g)]) by (unfold level_regions; simpl; now rewrite region_nil).
    assert (E2 : level_effects (rows (g_data g)) (g_effect g) [] (length (@nil cond)) = option_map (fun e => [e]) (g_effect g)).
    { unfold level_effects. destruct (sr_wf g R) as [_ W]. destruct (g_effect g); simpl; [|reflexivity]. now rewrite region_effects_nil. }
    rewrite E1, E2 in Es. rewrite Es. unfold bind. destruct ss; eauto. }
  destruct (nth (g_feature g) (g_types g) Cont), (g_split_cat g); eauto.
Qed.
