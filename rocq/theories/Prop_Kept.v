(** Properties C35 and C62 for the constructors of the PDP and SHAP classes: which instances an object keeps.
    [prep_nof_instances] is described by C35_subsampling: [idx] are the positions drawn by np.random.choice without
    replacement, or all of them. [correct Z idx kept] (Prop_Shap.v): entry i of [idx] is the position in [Z] of the i-th kept
    instance. *)
From Verif Require Import Base Numpy Utils Helpers HelpersProofs GlobalALE GlobalPDP GlobalShap Indices Prop_Helpers Prop_Shap.
Open Scope list_scope.

(** PDP and DerPDP keep exactly the instances drawn, and take default axis limits from them. *)
Theorem C35_pdp_construct : forall choice k X model nof al c st, pconstruct choice k X model nof al = Ok (c, st) ->
  exists n idx, prep_nof_instances choice nof (length (rows X)) = Ok (n, idx) /\
    select_rows (rows X) idx = Ok (rows (ps_data st)) /\ dim (ps_data st) = dim X /\ dt (ps_data st) = dt X /\
    p_kind c = k /\ p_model c = model /\
    match al with
    | Some l => l = (p_mins c, p_maxs c)
    | None => axis_limits_from_data (ps_data st) = Ok (p_mins c, p_maxs c)
    end /\ forall f, ps_fitted st f = false.
Proof.
  intros choice k X model nof al c st H. unfold pconstruct in H. apply bind_ok in H as ([n idx] & H1 & H). apply bind_ok in H as (rs & H2 & H).
  cbv zeta in H. apply bind_ok in H as ([mins maxs] & H3 & H). injection H as <- <-. exists n, idx. cbn.
  repeat (split; [first [exact H1|exact H2|reflexivity]|]). split; [|reflexivity]. destruct al as [p|]; [congruence|exact H3].
Qed.
Print Assumptions C35_pdp_construct.

(** The second selection keeps everything. *)
Lemma again choice nof N n idx : choice_without_replacement choice -> prep_nof_instances choice nof N = Ok (n, idx) ->
  exists m, prep_nof_instances choice nof (length idx) = Ok (m, seq 0 (length idx)).
Proof.
  intros HC H. destruct nof as [b|s|z|l|]; try discriminate.
  - cbn in H |- *. destruct (String.eqb s "all"); [|discriminate]. eexists; reflexivity.
  - unfold prep_nof_instances in *. destruct (Z.ltb_spec z (Z.of_nat N)) as [L|L].
    + destruct (Z.ltb_spec z 0) as [L0|L0]; [discriminate|]. injection H as <- <-.
      assert (E : length (choice N (Z.to_nat z)) = Z.to_nat z) by (apply HC; lia). rewrite E.
      destruct (Z.ltb_spec z (Z.of_nat (Z.to_nat z))); [lia|]. eexists; reflexivity.
    + injection H as <- <-. rewrite seq_length. destruct (Z.ltb_spec z (Z.of_nat N)); [lia|]. eexists; reflexivity.
Qed.
Lemma kept_length (Z : Mat) idx kept : select_rows Z idx = Ok kept -> length kept = length idx.
Proof. intros H. symmetry. exact (proj1 (take_nth Z idx kept H)). Qed.

(** ShapDP keeps exactly the instances of the first draw; its attribute [indices] is 0, 1, 2, .... *)
Theorem C35_shap_construct : forall choice explain argsort spline X nof al ind c st, choice_without_replacement choice ->
  sconstruct choice explain argsort spline X nof al = Ok (ind, c, st) ->
  exists n idx, prep_nof_instances choice nof (length (rows X)) = Ok (n, idx) /\
    select_rows (rows X) idx = Ok (rows (ss_data st)) /\ dim (ss_data st) = dim X /\ dt (ss_data st) = dt X /\
    ind = seq 0 (length idx) /\ s_explain c = explain /\ s_argsort c = argsort /\ s_spline c = spline /\
    match al with
    | Some l => l = (s_mins c, s_maxs c)
    | None => axis_limits_from_data (ss_data st) = Ok (s_mins c, s_maxs c)
    end /\ forall f, ss_fitted st f = false.
Proof.
  intros choice explain argsort spline X nof al ind c st HC H. unfold sconstruct in H. apply bind_ok in H as ([n idx] & H1 & H). apply bind_ok in H as (rs & H2 & H).
  destruct (again _ _ _ _ _ HC H1) as [m Hm]. rewrite (kept_length _ _ _ H2), Hm in H. cbn [bind] in H.
  replace (seq 0 (length idx)) with (seq 0 (length rs)) in H by (now rewrite (kept_length _ _ _ H2)). rewrite select_rows_all in H. cbn [bind] in H. cbv zeta in H.
  apply bind_ok in H as ([mins maxs] & H3 & H). injection H as <- <- <-. exists n, idx. cbn. rewrite (kept_length _ _ _ H2).
  repeat (split; [first [exact H1|exact H2|reflexivity]|]). split; [|reflexivity]. destruct al as [p|]; [congruence|exact H3].
Qed.
Print Assumptions C35_shap_construct.

(** What RHALE and ShapDP do with the attribute, on every dataset: the instances kept are those drawn, while [indices] is
    0, 1, 2, ..., which tells which instances were kept only if the first instances of the dataset were drawn in order. *)
Theorem C62_overwritten : forall k choice nof Z ind kept, choice_without_replacement choice -> k = CRHALE \/ k = CShapDP ->
  built k choice nof Z = Ok (ind, kept) ->
  ind = seq 0 (length kept) /\
  (exists n idx, prep_nof_instances choice nof (length Z) = Ok (n, idx) /\ correct Z idx kept) /\
  (correct Z ind kept <-> kept = firstn (length kept) Z).
Proof.
  intros k choice nof Z ind kept HC Hk H.
  assert (G : exists n idx, prep_nof_instances choice nof (length Z) = Ok (n, idx) /\ select_rows Z idx = Ok kept /\ ind = seq 0 (length kept)).
  { destruct Hk as [-> | ->]; cbn [built] in H; apply bind_ok in H as ([i rs] & H1 & H); unfold base_select in H1; apply bind_ok in H1 as ([n idx] & H1 & H2);
      apply bind_ok in H2 as (rs' & H2 & E); injection E as <- <-; exists n, idx; (split; [exact H1|]).
    - unfold base_select in H. cbn in H. rewrite select_rows_all in H. injection H as <- <-. auto.
    - destruct (again _ _ _ _ _ HC H1) as [m Hm]. unfold base_select in H. rewrite (kept_length _ _ _ H2), Hm in H. cbn [bind] in H.
      replace (seq 0 (length idx)) with (seq 0 (length rs')) in H by (now rewrite (kept_length _ _ _ H2)). rewrite select_rows_all in H. injection H as <- <-. auto. }
  destruct G as (n & idx & G1 & G2 & G3). split; [exact G3|]. split; [exists n, idx; split; [exact G1|now apply take_nth]|].
  subst ind. clear. unfold correct. rewrite seq_length. split.
  - intros [_ H]. assert (E : forall i, (i < length kept)%nat -> nth_error Z i = nth_error kept i) by (intros i Hi; rewrite <- (H i Hi), seq_nth by exact Hi; reflexivity).
    clear H. revert Z E. induction kept as [|a kept IH]; intros Z E; [reflexivity|]. pose proof (E 0%nat ltac:(simpl; lia)) as E0. destruct Z as [|b Z]; [discriminate|].
    cbn in E0. injection E0 as ->. simpl. f_equal. apply IH. intros i Hi. exact (E (S i) ltac:(simpl; lia)).
  - intros E. split; [reflexivity|]. intros i Hi. rewrite seq_nth by exact Hi. simpl. rewrite E. rewrite E in Hi. clear E. revert Z Hi. generalize (length kept). intros m. revert i.
    induction m as [|m IH]; intros i Z Hi; simpl in Hi |- *; [lia|]. destruct Z as [|b Z]; [simpl in Hi; lia|]. destruct i as [|i]; [reflexivity|]. simpl in *. apply IH. lia.
Qed.
Print Assumptions C62_overwritten.

Example C62_overwritten_instance : choice_without_replacement (fun N n => map (fun i => N - 1 - i)%nat (seq 0 n)) /\
  built CRHALE (fun N n => map (fun i => N - 1 - i)%nat (seq 0 n)) (PyInt 2) [qs [1]; qs [2]; qs [3]]%Qc = Ok ([0; 1]%nat, [qs [3]; qs [2]]%Qc).
Proof.
  split; [|vm_compute; reflexivity]. intros N n H. rewrite map_length, seq_length. split; [reflexivity|]. split.
  - assert (G : forall a m, (a + m <= N)%nat -> NoDup (map (fun i => N - 1 - i)%nat (seq a m))).
    { intros a m. revert a. induction m as [|m IH]; intros a L; simpl; constructor; [|apply IH; lia]. intros K. apply in_map_iff in K as (j & E & Hj). apply in_seq in Hj. lia. }
    apply (G 0%nat). lia.
  - intros i Hi. apply in_map_iff in Hi as (j & <- & Hj). apply in_seq in Hj. lia.
Qed.
