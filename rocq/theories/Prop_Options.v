(** Properties C83 and C84: what the options of a regional fit and the arguments of the regional constructors do.
    The attribute partitioners["feature_f"] of the object, [qs_part], holds the Regions object, the splits found (None when
    the list is empty) and the important splits. [region], [paths], [candidate], ... are in PartSpec.v. *)
From Verif Require Import Base Numpy Spec NumpyFacts Utils UtilsProofs Helpers HelpersProofs Binning LimitsProofs GlobalALE ALEState GlobalPDP PDPProofs GlobalShap
  PartSpec Partition PartProofs PartSearch PartTree PartFacts PartNodes Regional RegProofs RegNodes RegPlotProofs Report ReportProofs HeterProofs
  Prop_Utils Prop_Helpers Prop_Partition Prop_Regional Prop_Report.
Open Scope Qc_scope.
Open Scope list_scope.

(** The features a fit of [f] may split on. *)
Definition may_split_on (c : rconfig) (f : nat) (o : fitopts) (k : nat) : Prop :=
  match fo_cand o with AllFeatures => (k < dim (q_data c))%nat /\ k <> f | Features l => In k l end.
Definition nof_may_split_on (c : rconfig) (f : nat) (o : fitopts) : nat :=
  match fo_cand o with AllFeatures => (dim (q_data c) - 1)%nat | Features l => length l end.
(** From [a] to [b] the heterogeneity drops by more than the fraction [t] of [a]. *)
Definition drops_enough (t a b : Qc) : Prop := (a <> 0 /\ t < (a - b) / a) \/ (a = 0 /\ b < 0).
Lemma drop_exceeds_enough a b t : drop_exceeds a b t = true <-> drops_enough t a b.
Proof.
  unfold drop_exceeds, drops_enough. destruct (Qceqb_spec a 0) as [E|E]; rewrite Qcltb_lt; split.
  - intros H. right. now split.
  - intros [[H _]|[_ H]]; [contradiction|assumption].
  - intros H. left. now split.
  - intros [[_ H]|[H _]]; [assumption|contradiction].
Qed.

Lemma others_length n f : (f < n)%nat -> length (filter (fun i => negb (Nat.eqb i f)) (seq 0 n)) = (n - 1)%nat.
Proof.
  intros Hf. replace (seq 0 n) with (seq 0 f ++ f :: seq (S f) (n - S f)).
  2: { replace n with (f + S (n - S f))%nat at 2 by lia. rewrite seq_app. simpl. reflexivity. }
  rewrite filter_app. simpl. rewrite Nat.eqb_refl. simpl. rewrite app_length.
  assert (G : forall l, (forall i, In i l -> i <> f) -> filter (fun i => negb (Nat.eqb i f)) l = l).
  { induction l as [|a l IH]; intros H; [reflexivity|]. simpl. destruct (Nat.eqb_spec a f) as [E|E]; [exfalso; exact (H a (or_introl eq_refl) E)|]. simpl. rewrite IH; [reflexivity|intros i Hi; apply H; now right]. }
  rewrite !G, !seq_length; [lia| |]; intros i Hi; apply in_seq in Hi; lia.
Qed.
Lemma others_in n f k : In k (filter (fun i => negb (Nat.eqb i f)) (seq 0 n)) <-> (k < n)%nat /\ k <> f.
Proof. rewrite filter_In, in_seq. destruct (Nat.eqb_spec k f); simpl; intuition (lia || congruence). Qed.

(** Everything the partition of a feature takes from the object and from the options. *)
Lemma partition_all x c f o g fd imp : partition_of x c f o = Ok (g, fd, imp) -> (f < dim (q_data c))%nat ->
  g_types g = q_types c /\ g_nof_splits g = fo_nsplits o /\ g_max_levels g = fo_depth o /\ g_split_cat g = fo_splitcat o /\
  length (g_foc g) = nof_may_split_on c f o /\
  (forall k t, In (k, t) (combine (g_foc g) (g_foc_types g)) <-> may_split_on c f o k /\ nth_error (q_types c) k = Some t).
Proof.
  intros H Hf. unfold partition_of in H. apply bind_ok in H as (h & _ & H). apply bind_ok in H as (g' & HG & H). apply bind_ok in H as (fd' & _ & H). injection H as <- _ _.
  unfold regions_init in HG. apply bind_ok in HG as (ft & HF & HG). injection HG as <-. simpl.
  repeat (split; [reflexivity|]). set (foc := match fo_cand o with AllFeatures => _ | Features l => l end) in *. split.
  - unfold foc, nof_may_split_on. destruct (fo_cand o); [now apply others_length|reflexivity].
  - assert (M : forall k, In k foc <-> may_split_on c f o k) by (intros k; unfold foc, may_split_on; destruct (fo_cand o); [apply others_in|reflexivity]).
    intros k t. rewrite <- M. clear M. revert ft HF. generalize foc as l. induction l as [|a l IH]; intros ft HF; cbn [mapM] in HF.
    + injection HF as <-. simpl. tauto.
    + apply bind_ok in HF as (b & Hb & HF). apply bind_ok in HF as (q & Hq & HF). injection HF as <-. simpl. rewrite (IH q Hq).
      unfold getn in Hb. destruct (nth_error (q_types c) a) as [ta|] eqn:E; [|discriminate]. injection Hb as ->. split.
      * intros [EQ|[A B]]; [injection EQ as -> ->; split; [now left|assumption]|split; [now right|assumption]].
      * intros [[->|A] B]; [left; congruence|right; split; assumption].
Qed.
Lemma search_none g : search_all_splits g = Ok None ->
  (length (rows (g_data g)) < g_min_points g)%nat \/ g_max_levels g = 0%nat \/ (nth_error (g_types g) (g_feature g) = Some Cat /\ g_split_cat g = false).
Proof.
  intros H. unfold search_all_splits in H. apply bind_ok in H as (t & Ht & H).
  assert (HT : nth_error (g_types g) (g_feature g) = Some t) by (unfold getn in Ht; destruct (nth_error (g_types g) (g_feature g)); congruence).
  assert (A : (passert (Nat.leb (g_max_levels g) (length (g_foc g))) ;;
      h0 <- g_heter g (rows (g_data g)) (g_effect g) ;;
      ss <- search_levels g (g_max_levels g) [rows (g_data g)] (option_map (fun e => [e]) (g_effect g)) [h0] [] ;;
      match ss with [] => Ok None | _ => Ok (Some (mkRoot h0 (length (rows (g_data g))), ss)) end) = Ok None ->
    (length (rows (g_data g)) < g_min_points g)%nat \/ g_max_levels g = 0%nat).
  { intros HB. apply bind_ok in HB as (u & _ & HB). apply bind_ok in HB as (h0 & _ & HB). apply bind_ok in HB as (ss & HS & HB). destruct ss as [|s ss]; [|discriminate].
    destruct (g_max_levels g) as [|n]; [now right|left]. cbn [search_levels] in HS. cbn [existsb] in HS. rewrite Bool.orb_false_r in HS.
    destruct (Nat.ltb_spec (length (rows (g_data g))) (g_min_points g)) as [L|L]; [exact L|exfalso].
    apply bind_ok in HS as (s & _ & HS). apply bind_ok in HS as (js & _ & HS). apply bind_ok in HS as (xs & _ & HS).
    assert (GR : forall n xs ojs b acc r, search_levels g n xs ojs b acc = Ok r -> (length acc <= length r)%nat).
    { clear. induction n as [|n IH]; intros xs ojs b acc r H; cbn [search_levels] in H; [injection H as <-; lia|]. destruct (existsb _ _); [injection H as <-; lia|].
      apply bind_ok in H as (s & _ & H). apply bind_ok in H as (js & _ & H). apply bind_ok in H as (xs' & _ & H). apply IH in H. rewrite app_length in H. simpl in H. lia. }
    apply GR in HS. simpl in HS. lia. }
  destruct t; [destruct (g_split_cat g) eqn:E; [destruct (A H); auto|right; right; split; [assumption|reflexivity]]|destruct (A H); auto].
Qed.

(** * C83  The options of fit are honoured *)
(** Any history, then a fit with options [o] that includes [f] and succeeds, then any history without a fit of [f]. *)
Section C83.
Variables (x : externals) (c : rconfig) (limit : nat) (ks1 ks2 : list xcall) (fs : list nat) (o : fitopts) (f : nat).
Definition last_fit : Prop := wf_reg c /\ In f fs /\ Forall (fun k => ~ xfits f k) ks2 /\ snd (rfit x c (xrun x c limit qfresh ks1) fs o) = Ok tt.
Definition after : qstate := xrun x c limit qfresh (ks1 ++ XCall (QFit fs o) :: ks2).
(** What partitioners["feature_f"].splits and .important_splits hold afterwards. *)
Definition holds_splits (fd : found) (imp : list split) : Prop := exists g, qs_part after f = Some (g, fd, imp).

Lemma last_partition : last_fit -> exists g fd imp, qs_part after f = Some (g, fd, imp) /\ partition_of x c f o = Ok (g, fd, imp) /\ (f < dim (q_data c))%nat /\ (2 <= fo_minpts o)%nat.
Proof.
  intros (W & HI & HN & HF). destruct (after_fit x c limit ks1 fs o ks2 f HI HN HF) as (p & t1 & t2 & P & S0 & Hf & Hm). destruct p as [[g fd] imp]. exists g, fd, imp.
  destruct S0 as (_ & _ & _ & QP & _). split; [exact QP|]. split; [exact P|]. split; assumption.
Qed.
End C83.

(** When splits are searched for at all. *)
Theorem C83_searched : forall x c limit ks1 ks2 fs o f, last_fit x c limit ks1 ks2 fs o f ->
  exists fd imp, holds_splits x c limit ks1 ks2 fs o f fd imp /\
    (fd = None <-> (length (rows (q_data c)) < fo_minpts o)%nat \/ fo_depth o = 0%nat \/ (nth_error (q_types c) f = Some Cat /\ fo_splitcat o = false)) /\
    (fd = None -> imp = []).
Proof.
  intros x c limit ks1 ks2 fs o f HL. destruct (last_partition _ _ _ _ _ _ _ _ HL) as (g & fd & imp & QP & P & Hf & Hm). exists fd, imp. split; [now exists g|].
  destruct (partition_fields _ _ _ _ _ _ _ P) as (SR & EI & EF & ED & EE & EN & LF & E1 & E2 & E3). destruct (partition_all _ _ _ _ _ _ _ P Hf) as (F1 & F2 & F3 & F4 & F5 & F6).
  rewrite <- ED, <- E3, <- F3, <- F1, <- F4. rewrite <- EF at 1. split; [|intros ->; exact EI]. split.
  - intros ->. rewrite EF. rewrite <- EF at 1. exact (search_none g SR).
  - apply C46_none. exact SR.
Qed.
Print Assumptions C83_searched.

(** The splits found: number of levels (max_depth, min_points_per_subregion), features (candidate_conditioning_features,
    never the feature itself when "all"), their declared types, positions (nof_candidate_splits_for_numerical), and
    optimality with respect to the heterogeneity function of the class (which C70 describes). *)
Theorem C83_splits : forall x c limit ks1 ks2 fs o f r ss imp, last_fit x c limit ks1 ks2 fs o f ->
  holds_splits x c limit ks1 ks2 fs o f (Some (r, ss)) imp ->
  let X := rows (q_data c) in let E := q_effects c in
  exists h, heter_of x c f o = Ok h /\ r_nof r = length X /\ h X E = Ok (r_heter r) /\
    (1 <= length ss <= fo_depth o)%nat /\ (fo_depth o <= nof_may_split_on c f o)%nat /\
    ((length ss < fo_depth o)%nat -> exists p, In p (paths (length ss)) /\ (length (region X (conditions ss) p) < fo_minpts o)%nat) /\
    forall l s, nth_error ss l = Some s ->
      let cs := conditions (firstn l ss) in
      (forall p, In p (paths l) -> (fo_minpts o <= length (region X cs p))%nat) /\
      may_split_on c f o (s_feature s) /\ nth_error (q_types c) (s_feature s) = Some (s_type s) /\
      candidate X (fo_nsplits o) (s_feature s) (s_type s) (s_position s) /\
      exists before, heterogeneities h X E cs (paths l) before /\
        let now := cs ++ [(s_feature s, s_type s, s_position s)] in
        let ns := map (fun p => length (region X now p)) (paths (S l)) in
        s_nof s = ns /\ heterogeneities h X E now (paths (S l)) (s_heter s) /\
        s_wheter s = weighted ns (s_heter s) /\ s_drop s = weighted ns (drops before (s_heter s)) /\
        forall f' t p, may_split_on c f o f' -> nth_error (q_types c) f' = Some t -> candidate X (fo_nsplits o) f' t p ->
          let other := cs ++ [(f', t, p)] in
          exists hs, heterogeneities h X E other (paths (S l)) hs /\
            weighted (map (fun p => length (region X other p)) (paths (S l))) (drops before hs) <= s_drop s.
Proof.
  intros x c limit ks1 ks2 fs o f r ss imp HL (g0 & HH) X E. destruct (last_partition _ _ _ _ _ _ _ _ HL) as (g & fd & imp' & QP & P & Hf & Hm).
  rewrite QP in HH. injection HH as -> -> ->. rename g0 into g. destruct HL as ((WA & _) & _).
  destruct (partition_fields _ _ _ _ _ _ _ P) as (SR & EI & EF & ED & EE & EN & LF & E1 & E2 & E3). destruct (partition_all _ _ _ _ _ _ _ P Hf) as (F1 & F2 & F3 & F4 & F5 & F6).
  assert (W : wf_regions g) by (split; [exact LF|rewrite ED, EE; exact WA]). exists (g_heter g). split; [exact (partition_heter _ _ _ _ _ _ _ P)|].
  destruct (search_inv g r ss W SR) as (S1 & S2 & _ & _ & S5 & _ & _). destruct (C46_depth g r ss W SR) as (D1 & D2 & D3).
  unfold X, E. rewrite <- ED, <- EE, <- E3, <- F3, <- F5. split; [exact S1|]. split; [exact S2|]. split; [exact D1|]. split; [exact S5|]. split; [exact D3|].
  intros l s HN. set (cs := conditions (firstn l ss)). destruct (C38_best g r ss l s W SR HN) as (before & B1 & (B2 & B3 & B4 & B5) & B6 & B7 & B8). apply F6 in B6 as [B6 B6'].
  split.
  { intros p Hp. destruct (D2 l s HN) as (_ & _ & D). specialize (D p Hp). unfold cs, conditions. rewrite firstn_map_cond, region_firstn; [exact D|]. apply paths_len in Hp. lia. }
  split; [exact B6|]. split; [exact B6'|]. split; [rewrite <- F2; exact B7|]. exists before. split; [exact B1|]. split; [exact B2|]. split; [exact B3|]. split; [exact B4|]. split; [exact B5|].
  intros f' t p M T C. apply (B8 f' t p); [apply F6; split; assumption|rewrite F2; exact C].
Qed.
Print Assumptions C83_splits.

(** The important splits: heter_small_enough and heter_pcg_drop_thres. *)
Theorem C83_important : forall x c limit ks1 ks2 fs o f r ss imp, last_fit x c limit ks1 ks2 fs o f ->
  holds_splits x c limit ks1 ks2 fs o f (Some (r, ss)) imp ->
  let h := r_heter r :: map s_wheter ss in
  (h@0 = BIG_M \/ h@0 < fo_small o -> imp = []) /\
  (h@0 <> BIG_M -> fo_small o <= h@0 -> exists m, imp = firstn m ss /\ (m <= length ss)%nat /\
     (forall k, (k < m)%nat -> drops_enough (fo_drop o) h@k h@(S k)) /\
     ((m < length ss)%nat -> ~ drops_enough (fo_drop o) h@m h@(S m))).
Proof.
  intros x c limit ks1 ks2 fs o f r ss imp HL (g0 & HH) h. destruct (last_partition _ _ _ _ _ _ _ _ HL) as (g & fd & imp' & QP & P & Hf & Hm).
  rewrite QP in HH. injection HH as -> -> ->. rename g0 into g.
  destruct (partition_fields _ _ _ _ _ _ _ P) as (SR & EI & EF & ED & EE & EN & LF & E1 & E2 & E3). change (h@0) with (r_heter r). rewrite <- E1, <- E2. split.
  - intros H. rewrite EI. now apply C39_nothing.
  - intros H1 H2. destruct (choose_prefix g r ss H1 H2) as (m & A & B & C & D). exists m. split; [now rewrite EI|]. split; [exact B|]. split.
    + intros k Hk. apply drop_exceeds_enough. exact (C k Hk).
    + intros Hm' HD. apply drop_exceeds_enough in HD. specialize (D Hm'). change (level_heters r ss) with h in D. congruence.
Qed.
Print Assumptions C83_important.
(** The defaults: the first eval of a feature that is not fitted leaves the object as fit would, with
    heter_pcg_drop_thres = heter_small_enough = 0.1, max_depth = 1, 20 candidate positions, at least 10 instances per
    subregion, all other features, no split of the effects of categorical features, no centring and, of the ALE classes,
    20 fixed bins (RegionalALE) or greedy bins (RegionalRHALE). *)
Theorem C83_defaults : forall x c st f node_idx xs het cv, (f < dim (q_data c))%nat -> qs_fitted st f = false ->
  fst (reval x c st f node_idx xs het cv) =
  fst (rfit x c st [f] {| fo_drop := Q2Qc (1 # 10); fo_small := Q2Qc (1 # 10); fo_depth := 1; fo_nsplits := 20; fo_minpts := 10; fo_cand := AllFeatures;
                          fo_splitcat := false; fo_binning := match q_kind c with RALE => MFixed 20 (Some 0%nat) 15 | _ => MStr "greedy" end;
                          fo_centering := PyBool false; fo_nof := PyStr "all"; fo_pts := PyInt 100; fo_vec := true |}).
Proof.
  intros x c st f node_idx xs het cv Hf NF. unfold reval, rrefit. rewrite (proj2 (Nat.ltb_lt _ _) Hf), NF.
  match goal with |- _ = fst (rfit x c st [f] ?d) => change d with (default_opts (q_kind c)) end.
  destruct (rfit x c st [f] (default_opts (q_kind c))) as [st' [u|e]]; reflexivity.
Qed.
Print Assumptions C83_defaults.
(** fit refuses min_points_per_subregion < 2 and leaves the object as it was. *)
Theorem C83_min_points : forall x c st fs o, (fo_minpts o < 2)%nat -> rfit x c st fs o = (st, Raise AssertionError).
Proof. intros x c st fs o H. unfold rfit. destruct (Nat.leb_spec 2 (fo_minpts o)); [lia|reflexivity]. Qed.
Print Assumptions C83_min_points.

(** Two levels, each on the better of the two other features, after a fit with other options and before a fit of another
    feature; and a fit whose conditioning features are given. *)
Definition ex83_given : fitopts := mkFO (Q2Qc (1#10)) (Q2Qc (1 # 10)) 1 3 2 (Features [2%nat]) false (MFixed 2 (Some 0%nat) 15) (PyBool false) (PyStr "all") (PyInt 5) true.
Definition ex83_ks1 : list xcall := [XCall (QFit [0%nat] (ex_opts (Q2Qc 2) 1 2))].
Definition ex83_ks2 : list xcall := [XShow [0%nat] true None; XCall (QFit [1%nat] ex_opts3)].
Definition ex83_seen (o : fitopts) :=
  match qs_part (after ex_x (ex_get ex_rhale) 1000 ex83_ks1 ex83_ks2 [0%nat] o) 0 with
  | Some (_, Some (r, ss), imp) => Some (this (r_heter r), map (fun s => (s_feature s, s_type s, this (s_position s), this (s_wheter s))) ss, length imp)
  | _ => None end.
Lemma ex83_last o : snd (rfit ex_x (ex_get ex_rhale) (xrun ex_x (ex_get ex_rhale) 1000 qfresh ex83_ks1) [0%nat] o) = Ok tt ->
  last_fit ex_x (ex_get ex_rhale) 1000 ex83_ks1 ex83_ks2 [0%nat] o 0.
Proof.
  intros H. split; [split; [vm_compute; reflexivity|vm_compute; lia]|]. split; [now left|]. split; [|exact H].
  repeat (apply Forall_cons; [simpl; intuition congruence|]). constructor.
Qed.
Example C83_instance : last_fit ex_x (ex_get ex_rhale) 1000 ex83_ks1 ex83_ks2 [0%nat] ex_opts3 0 /\
  ex83_seen ex_opts3 = Some ((15 # 4)%Q, [(1%nat, Cat, 0%Q, (3 # 8)%Q); (2%nat, Cat, 0%Q, 0%Q)], 2%nat).
Proof. split; [apply ex83_last; computed|computed]. Qed.
Example C83_given_instance : last_fit ex_x (ex_get ex_rhale) 1000 ex83_ks1 ex83_ks2 [0%nat] ex83_given 0 /\
  exists w, ex83_seen ex83_given = Some ((15 # 4)%Q, [(2%nat, Cat, 0%Q, w)], 0%nat).
Proof. split; [apply ex83_last; computed|eexists; computed]. Qed.

(** * C84  The regional constructors *)
Lemma limits_lengths X mins maxs : axis_limits_from_data X = Ok (mins, maxs) -> length mins = dim X /\ length maxs = dim X.
Proof.
  unfold axis_limits_from_data. intros H. apply bind_ok in H as (a & HA & H). apply bind_ok in H as (b & HB & H). injection H as <- <-.
  apply mapM_length in HA, HB. rewrite seq_length in HA, HB. split; congruence.
Qed.
(** What the object holds: the selected instances of the dataset in the order of the selection (C35 describes the
    selection), limits and types as given or, by default, from the *whole* dataset, names as given or x_0, x_1, .... *)
Theorem C84_construct : forall x k X model E nof al types cl names c, rconstruct x k X model E nof al types cl names = Ok c ->
  q_kind c = k /\ q_model c = model /\ q_cat_limit c = cl /\ dim (q_data c) = dim X /\ dt (q_data c) = dt X /\
  (exists n idx, prep_nof_instances (x_choice x) nof (length (rows X)) = Ok (n, idx) /\ q_nof c = n /\ length (rows (q_data c)) = length idx /\
     forall i, (i < length idx)%nat -> nth_error (rows (q_data c)) i = nth_error (rows X) (nth i idx 0%nat)) /\
  match al with
  | Some (mins, maxs) => q_mins c = mins /\ q_maxs c = maxs
  | None => length (q_mins c) = dim X /\ length (q_maxs c) = dim X /\
      forall f, (f < dim X)%nat -> is_min (values (rows X) f) (q_mins c)@f /\ is_max (values (rows X) f) (q_maxs c)@f
  end /\
  match types with
  | Some ts => q_types c = ts
  | None => length (q_types c) = dim X /\
      forall f ds, (f < dim X)%nat -> NoDup ds -> (forall v, In v ds <-> In v (values (rows X) f)) -> nth f (q_types c) Cont = if Nat.ltb (length ds) cl then Cat else Cont
  end /\
  match names with Some l => q_names c = l | None => length (q_names c) = length (q_mins c) /\ NoDup (q_names c) end.
Proof.
  intros x k X model E nof al types cl names c H. unfold rconstruct in H. apply bind_ok in H as (e & H0 & H).
  apply bind_ok in H as ([n idx] & H1 & H). apply bind_ok in H as (rs & H2 & H). apply bind_ok in H as (es & H3 & H). apply bind_ok in H as ([mins maxs] & H4 & H). injection H as <-. cbn [q_kind q_data q_model q_mins q_maxs q_types q_cat_limit q_names q_nof dim dt rows].
  repeat (split; [reflexivity|]). split; [|split; [|split]].
  - exists n, idx. split; [exact H1|]. split; [reflexivity|]. clear -H2. unfold select_rows, take in H2. revert rs H2. induction idx as [|a idx IH]; intros rs H2; cbn [mapM] in H2.
    + injection H2 as <-. split; [reflexivity|intros i Hi; inversion Hi].
    + apply bind_ok in H2 as (b & Hb & H2). apply bind_ok in H2 as (q & Hq & H2). injection H2 as <-. destruct (IH q Hq) as [L N]. split; [simpl; now rewrite L|].
      intros [|i] Hi; simpl; [unfold getn in Hb; destruct (nth_error (rows X) a); congruence|apply N; simpl in Hi; lia].
  - destruct al as [[a b]|]; [injection H4 as <- <-; split; reflexivity|]. destruct (limits_lengths X mins maxs H4) as [L1 L2]. split; [exact L1|]. split; [exact L2|].
    intros f Hf. destruct (limits_extrema X mins maxs f H4 Hf) as (C & (r1 & A1 & B1) & (r2 & A2 & B2)). unfold is_min, is_max, values. split; split.
    + apply in_map_iff. exists r1. split; assumption.
    + intros v Hv. apply in_map_iff in Hv as (r & <- & Hr). apply (C r Hr).
    + apply in_map_iff. exists r2. split; assumption.
    + intros v Hv. apply in_map_iff in Hv as (r & <- & Hr). apply (C r Hr).
  - destruct types as [ts|]; [reflexivity|]. destruct (C09_feature_types X cl) as [L F]. split; [exact L|]. intros f ds Hf ND HD. apply F; [exact Hf|exact ND|].
    intros v. rewrite HD. unfold values. rewrite in_map_iff. split; intros (r & A & B); exists r; split; assumption.
  - destruct names as [l|]; [reflexivity|]. destruct (C52_feature_names_distinct (length mins)) as [A B]. split; assumption.
Qed.
Print Assumptions C84_construct.
(** Every constructed object has effects aligned with its instances, and a name for every feature unless fewer names (or
    axis limits) were given: the hypothesis [wf_reg] of C49, C63, C67-C69, C83. *)
Theorem C84_wellformed : forall x k X model E nof al types cl names c, rconstruct x k X model E nof al types cl names = Ok c ->
  match names, al with Some l, _ => (dim X <= length l)%nat | None, Some (mins, _) => (dim X <= length mins)%nat | None, None => True end -> wf_reg c.
Proof.
  intros x k X model E nof al types cl names c H HN. destruct (C84_construct x k X model E nof al types cl names c H) as (_ & _ & _ & ED & _ & _ & EL & _ & EN). split.
  - unfold rconstruct in H. apply bind_ok in H as (e & H0 & H). apply bind_ok in H as ([n idx] & H1 & H). apply bind_ok in H as (rs & H2 & H). apply bind_ok in H as (es & H3 & H). apply bind_ok in H as ([mins maxs] & H4 & H).
    injection H as <-. cbn [q_data q_effects rows]. apply take_length in H2. destruct e as [e|]; [|injection H3 as <-; exact I].
    destruct (select_rows e idx) as [es'|] eqn:HE; [|discriminate]. injection H3 as <-. apply take_length in HE. simpl. congruence.
  - rewrite ED. destruct names as [l|]; [now rewrite EN|]. destruct EN as [EN _]. rewrite EN. destruct al as [[mins maxs]|]; [destruct EL as [-> _]; exact HN|destruct EL as [-> _]; lia].
Qed.
Print Assumptions C84_wellformed.
Example C84_instance : exists c, rconstruct ex_x RPDP (mkData Float64 2 [qs [1; 5]; qs [3; 5]; qs [2; 7]; qs [0; 7]]) (map (fun r => r@0)) None (PyInt 2) None None 3 None = Ok c /\
  show (q_mins c) = [0; 5]%Q /\ show (q_maxs c) = [3; 7]%Q /\ q_types c = [Cont; Cat] /\ length (rows (q_data c)) = 2%nat /\ q_names c = ["x_0"; "x_1"]%string.
Proof. eexists. split; [vm_compute; reflexivity|]. repeat split; vm_compute; reflexivity. Qed.
