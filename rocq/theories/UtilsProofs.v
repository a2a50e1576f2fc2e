(** Proofs about effector/utils.py (C01-C09). *)
From Verif Require Import Base Numpy Spec NumpyFacts Utils.
Open Scope Qc_scope.

Lemma EPS_pos : 0 < EPS. Proof. reflexivity. Qed.

(** * add_last *)
Lemma add_last_length l e : length (add_last l e) = length l.
Proof. apply list_updn_length. Qed.
Lemma add_last_nth l e i : (i < length l)%nat ->
  (add_last l e)@i = if Nat.eqb i (length l - 1) then l@i + e else l@i.
Proof.
  intros H. unfold add_last. rewrite list_updn_nth by lia.
  destruct (Nat.eqb_spec i (length l - 1)) as [->|]; reflexivity.
Qed.
Lemma add_last_increasing l e : 0 <= e -> increasing l -> increasing (add_last l e).
Proof.
  intros He H i j Hij Hj. rewrite add_last_length in Hj. rewrite !add_last_nth by lia.
  specialize (H i j Hij Hj).
  destruct (Nat.eqb_spec i (length l - 1)); [lia|]. destruct (Nat.eqb_spec j (length l - 1)); qlra.
Qed.

(** * Bin index versus [in_bin] *)
Definition bidx (l : list Qc) (x : Qc) : Z := (Z.of_nat (digitize1 (add_last l EPS) x) - 1)%Z.

Lemma bidx_range l x : (2 <= length l)%nat -> increasing l -> covered l x ->
  (0 <= bidx l x < Z.of_nat (length l - 1))%Z.
Proof.
  intros Hl Hi [H1 H2]. unfold bidx.
  pose proof EPS_pos as Hpos.
  assert (W : weakly_increasing (add_last l EPS)) by (apply increasing_weak, add_last_increasing; [qlra|exact Hi]).
  assert (A : (0 < digitize1 (add_last l EPS) x)%nat).
  { apply digitize1_iff; [exact W|rewrite add_last_length; lia|]. rewrite add_last_nth by lia.
    destruct (Nat.eqb_spec 0 (length l - 1)); [lia|exact H1]. }
  assert (B : ~ (length l - 1 < digitize1 (add_last l EPS) x)%nat).
  { rewrite <- (digitize1_iff _ _ _ W) by (rewrite add_last_length; lia). rewrite add_last_nth by lia.
    rewrite Nat.eqb_refl. qlra. }
  lia.
Qed.

Lemma bidx_in_bin l x k : (2 <= length l)%nat -> increasing l -> covered l x -> (k < length l - 1)%nat ->
  in_bin l k x = Z.eqb (Z.of_nat k) (bidx l x).
Proof.
  intros Hl Hi Hc Hk. pose proof (bidx_range l x Hl Hi Hc) as R.
  destruct Hc as [H1 H2]. unfold bidx in *. pose proof EPS_pos as Hpos.
  assert (W : weakly_increasing (add_last l EPS)) by (apply increasing_weak, add_last_increasing; [qlra|exact Hi]).
  set (d := digitize1 (add_last l EPS) x) in *.
  assert (I : forall i, (i < length l)%nat -> ((add_last l EPS)@i <= x <-> (i < d)%nat)).
  { intros i Hil. apply digitize1_iff; [exact W|now rewrite add_last_length]. }
  assert (Ik := I k ltac:(lia)). assert (ISk := I (S k) ltac:(lia)).
  rewrite add_last_nth in Ik, ISk by lia.
  destruct (Nat.eqb_spec k (length l - 1)); [lia|].
  unfold in_bin. destruct (Nat.eqb_spec (S k) (length l - 1)) as [E|E].
  - assert (E2 : Nat.eqb (k + 2) (length l) = true) by (apply Nat.eqb_eq; lia). rewrite E2.
    assert (HL : x <= l@(S k)) by (rewrite E; exact H2).
    assert (ND : ~ (S k < d)%nat) by (rewrite <- ISk; qlra).
    destruct (Qcleb_spec l@k x) as [L|L].
    + assert (k < d)%nat by now apply Ik.
      assert (Z.of_nat k = Z.of_nat d - 1)%Z by lia.
      destruct (Z.eqb_spec (Z.of_nat k) (Z.of_nat d - 1)); [|lia].
      destruct (Qcltb_spec x l@(S k)); [reflexivity|]. simpl. apply Qceqb_eq. qlra.
    + assert (~ (k < d)%nat) by (rewrite <- Ik; qlra).
      destruct (Z.eqb_spec (Z.of_nat k) (Z.of_nat d - 1)); [lia|]. reflexivity.
  - assert (E2 : Nat.eqb (k + 2) (length l) = false) by (apply Nat.eqb_neq; lia). rewrite E2.
    simpl. rewrite orb_false_r.
    destruct (Qcleb_spec l@k x) as [L|L]; destruct (Qcltb_spec x l@(S k)) as [L'|L']; simpl.
    + assert (k < d)%nat by now apply Ik. assert (~ (S k < d)%nat) by (rewrite <- ISk; qlra).
      symmetry. apply Z.eqb_eq. lia.
    + assert (S k < d)%nat by now apply ISk. symmetry. apply Z.eqb_neq. lia.
    + assert (~ (k < d)%nat) by (rewrite <- Ik; qlra). symmetry. apply Z.eqb_neq. lia.
    + assert (~ (k < d)%nat) by (rewrite <- Ik; qlra). symmetry. apply Z.eqb_neq. lia.
Qed.

(** Every covered point lies in exactly one bin. *)
Lemma in_bin_exactly_one l x : (2 <= length l)%nat -> increasing l -> covered l x ->
  exists k, (k < length l - 1)%nat /\ in_bin l k x = true /\
    forall j, (j < length l - 1)%nat -> in_bin l j x = true -> j = k.
Proof.
  intros Hl Hi Hc. pose proof (bidx_range l x Hl Hi Hc) as R.
  exists (Z.to_nat (bidx l x)). split; [lia|]. split.
  - rewrite bidx_in_bin by (try assumption; lia). apply Z.eqb_eq. lia.
  - intros j Hj E. rewrite bidx_in_bin in E by (try assumption; lia). apply Z.eqb_eq in E. lia.
Qed.

Lemma in_bin_eqb l x : (2 <= length l)%nat -> increasing l -> covered l x ->
  exists k, (k < length l - 1)%nat /\ forall j, (j < length l - 1)%nat -> in_bin l j x = Nat.eqb j k.
Proof.
  intros Hl Hi Hc. pose proof (bidx_range l x Hl Hi Hc) as R.
  exists (Z.to_nat (bidx l x)). split; [lia|]. intros j Hj.
  rewrite bidx_in_bin by (try assumption; lia).
  destruct (Z.eqb_spec (Z.of_nat j) (bidx l x)); destruct (Nat.eqb_spec j (Z.to_nat (bidx l x))); lia.
Qed.

Lemma bin_indices_ok xs l : l <> [] -> increasing l -> bin_indices xs l = Ok (map (bidx l) xs).
Proof.
  intros Hn Hi. unfold bin_indices. destruct l as [|a l]; [congruence|].
  rewrite digitize_ok by (apply increasing_weak, add_last_increasing; [apply Qclt_le_weak, EPS_pos|exact Hi]).
  unfold bind. now rewrite map_map.
Qed.

(** members through the computed index *)
Lemma filter_combine_idx {A} (l xs : list Qc) (es : list A) k :
  (2 <= length l)%nat -> increasing l -> (forall x, In x xs -> covered l x) -> (k < length l - 1)%nat ->
  map snd (filter (fun p => Z.eqb (Z.of_nat k) (fst p)) (combine (map (bidx l) xs) es)) =
  map snd (filter (fun p => in_bin l k (fst p)) (combine xs es)).
Proof.
  intros Hl Hi Hc Hk. revert es. induction xs as [|x xs IH]; intros es; [reflexivity|].
  destruct es as [|e es]; [reflexivity|]. simpl.
  rewrite <- (bidx_in_bin l x k Hl Hi (Hc x (or_introl eq_refl)) Hk).
  destruct (in_bin l k x); simpl; [f_equal|]; apply IH; intros; apply Hc; now right.
Qed.

Lemma count_idx (l xs : list Qc) k :
  (2 <= length l)%nat -> increasing l -> (forall x, In x xs -> covered l x) -> (k < length l - 1)%nat ->
  count (Z.eqb (Z.of_nat k)) (map (bidx l) xs) = count (in_bin l k) xs.
Proof.
  intros Hl Hi Hc Hk. unfold count. rewrite filter_map_comm, map_length. f_equal.
  apply filter_ext_in. intros x Hx. symmetry. apply bidx_in_bin; auto.
Qed.

Lemma members_length l xs es k : length es = length xs -> length (members l xs es k) = count (in_bin l k) xs.
Proof.
  intros H. unfold members, count. rewrite map_length. revert es H.
  induction xs as [|x xs IH]; intros [|e es] H; simpl in *; try lia.
  destruct (in_bin l k x); simpl; auto.
Qed.

Lemma bidx_list_bounds l xs : (2 <= length l)%nat -> increasing l -> (forall x, In x xs -> covered l x) ->
  forall z, In z (map (bidx l) xs) -> (0 <= z < Z.of_nat (length l - 1))%Z.
Proof.
  intros Hl Hi Hc z Hz. apply in_map_iff in Hz as (x & <- & Hx). apply bidx_range; auto.
Qed.

(** The value computed for one bin. *)
Definition mean_or_nan (es : list Qc) : NQ := match es with [] => None | _ => Some (mean es) end.

Lemma mean_or_nan_divide es n : n = length es ->
  (if negb (Nat.eqb n 0) then match nsum (map Some es) with Some v => Some (v / qn n) | None => None end else None)
  = mean_or_nan es.
Proof.
  intros ->. rewrite nsum_some. destruct es as [|e es]; [reflexivity|]. reflexivity.
Qed.

Lemma combine_map_Some (xs : list Z) (es : list Qc) (p : Z -> bool) :
  map snd (filter (fun q => p (fst q)) (combine xs (map Some es))) =
  map Some (map snd (filter (fun q => p (fst q)) (combine xs es))).
Proof.
  revert es. induction xs as [|x xs IH]; intros [|e es]; try reflexivity. simpl.
  destruct (p x); simpl; rewrite IH; reflexivity.
Qed.

Lemma variance_eq l : variance l = sumq (map (fun e => (e - mean l) * (e - mean l)) l) / qn (length l).
Proof. unfold variance. unfold mean at 1. now rewrite map_length. Qed.

Section binning.
  Context (xs es l : list Qc).
  Context (Hlen : length es = length xs) (Hl : (2 <= length l)%nat) (Hi : increasing l)
          (Hc : forall x, In x xs -> covered l x).

  Lemma l_nonempty : l <> []. Proof. intros ->. simpl in Hl. lia. Qed.

  Lemma compute_bin_effect_eq :
    compute_bin_effect xs es l =
    Ok (map (fun k => mean_or_nan (members l xs es k)) (seq 0 (length l - 1)),
        map (fun k => count (in_bin l k) xs) (seq 0 (length l - 1))).
  Proof.
    pose proof (bidx_list_bounds l xs Hl Hi Hc) as B.
    unfold compute_bin_effect. rewrite (bin_indices_ok _ _ l_nonempty Hi). unfold bind at 1.
    rewrite bincount_w_ok; [|now rewrite !map_length|intros z Hz; apply B in Hz; lia].
    rewrite bincount_len_eq by (intros z Hz; apply B in Hz; lia). unfold bind at 1.
    rewrite bincount_ok by (intros z Hz; apply B in Hz; lia).
    rewrite bincount_len_eq by (intros z Hz; apply B in Hz; lia). unfold bind at 1.
    unfold divide_where. rewrite combine_self_map, map_map. f_equal. f_equal.
    - apply map_ext_in. intros k Hk. apply in_seq in Hk. cbn [fst snd].
      rewrite count_idx by (try assumption; lia).
      rewrite (combine_map_Some _ _ (fun z => Z.eqb (Z.of_nat k) z)).
      rewrite filter_combine_idx by (try assumption; lia).
      apply mean_or_nan_divide. symmetry. now apply members_length.
    - apply map_ext_in. intros k Hk. apply in_seq in Hk. apply count_idx; try assumption; lia.
  Qed.

  (** Variance: NaN unless two members. *)
  Definition var_or_nan (es : list Qc) : NQ := if Nat.ltb 1 (length es) then Some (variance es) else None.
  Definition estvar_or_nan (es : list Qc) : NQ :=
    if Nat.ltb 1 (length es) then Some (variance es / qn (length es)) else None.

  Lemma sq_dev_combine (m : list Qc) (ms : list NQ) (p : Qc -> bool) (mu : Qc -> NQ) (m0 : Qc) (xs' es' : list Qc) :
    (forall x, In x xs' -> p x = true -> mu x = Some m0) ->
    map snd (filter (fun q => p (fst q)) (combine xs' (map (fun q => lift2 (fun e m => (e - m) * (e - m)) (fst q) (snd q)) (combine (map Some es') (map mu xs'))))) =
    map Some (map (fun e => (e - m0) * (e - m0)) (map snd (filter (fun q => p (fst q)) (combine xs' es')))).
  Proof.
    revert es'. induction xs' as [|x xs' IH]; intros [|e es'] H; try reflexivity. simpl.
    destruct (p x) eqn:Ep; simpl.
    - rewrite (H x (or_introl eq_refl) Ep). simpl. f_equal. apply IH. intros; apply H; [now right|assumption].
    - apply IH. intros; apply H; [now right|assumption].
  Qed.

  Lemma filter_combine_idx_any {A} (ws : list A) k : (k < length l - 1)%nat ->
    map snd (filter (fun p => Z.eqb (Z.of_nat k) (fst p)) (combine (map (bidx l) xs) ws)) =
    map snd (filter (fun p => in_bin l k (fst p)) (combine xs ws)).
  Proof. intros. apply filter_combine_idx; assumption. Qed.

  Lemma compute_bin_variance_eq (ms : list NQ) :
    length ms = (length l - 1)%nat ->
    (forall k, (k < length l - 1)%nat -> members l xs es k <> [] -> nth k ms None = Some (mean (members l xs es k))) ->
    compute_bin_variance xs es l ms =
    Ok (map (fun k => var_or_nan (members l xs es k)) (seq 0 (length l - 1)),
        map (fun k => estvar_or_nan (members l xs es k)) (seq 0 (length l - 1))).
  Proof.
    intros Hm Hmean.
    pose proof (bidx_list_bounds l xs Hl Hi Hc) as B.
    unfold compute_bin_variance. rewrite (bin_indices_ok _ _ l_nonempty Hi). unfold bind at 1.
    rewrite (@takez_ok NQ _ _ None) by (intros z Hz; apply B in Hz; rewrite Hm; exact Hz). unfold bind at 1.
    rewrite map_map.
    rewrite vzip_eq by now rewrite !map_length. unfold bind at 1.
    rewrite bincount_w_ok; [| rewrite !map_length, combine_length, !map_length; lia |intros z Hz; apply B in Hz; lia].
    rewrite bincount_len_eq by (intros z Hz; apply B in Hz; lia). unfold bind at 1.
    rewrite bincount_ok by (intros z Hz; apply B in Hz; lia).
    rewrite bincount_len_eq by (intros z Hz; apply B in Hz; lia). unfold bind at 1.
    assert (Agg : forall k, (k < length l - 1)%nat ->
       nsum (map snd (filter (fun p => Z.eqb (Z.of_nat k) (fst p)) (combine (map (bidx l) xs)
           (map (fun p => lift2 (fun e m => (e - m) * (e - m)) (fst p) (snd p)) (combine (map Some es) (map (fun x => nth (Z.to_nat (bidx l x)) ms None) xs))))))
       = Some (sumq (map (fun e => (e - mean (members l xs es k)) * (e - mean (members l xs es k))) (members l xs es k)))).
    { intros k Hk. rewrite filter_combine_idx_any by exact Hk.
      rewrite (sq_dev_combine [] [] (in_bin l k) _ (mean (members l xs es k))).
      - rewrite nsum_some. reflexivity.
      - intros x Hx Hb. assert (E := Hb). rewrite bidx_in_bin in E by auto. apply Z.eqb_eq in E.
        rewrite <- E, Nat2Z.id. apply Hmean; [exact Hk|].
        intros N. pose proof (members_length l xs es k Hlen) as ML. rewrite N in ML. simpl in ML.
        unfold count in ML. assert (In x (filter (in_bin l k) xs)) by (apply filter_In; auto).
        destruct (filter (in_bin l k) xs); [contradiction|]. simpl in ML. lia. }
    set (agg := fun k => nsum _). 
    unfold divide_where. rewrite combine_self_map, map_map, combine_self_map, map_map. cbn [fst snd].
    f_equal. f_equal.
    - apply map_ext_in. intros k Hk. apply in_seq in Hk. unfold agg. rewrite Agg by lia.
      rewrite count_idx by (try assumption; lia). rewrite <- (members_length l xs es k Hlen).
      unfold var_or_nan. destruct (Nat.ltb_spec 1 (length (members l xs es k))); [|reflexivity].
      now rewrite variance_eq.
    - apply map_ext_in. intros k Hk. apply in_seq in Hk. unfold agg. rewrite Agg by lia.
      rewrite count_idx by (try assumption; lia). rewrite <- (members_length l xs es k Hlen).
      unfold estvar_or_nan. destruct (Nat.ltb_spec 1 (length (members l xs es k))); [|reflexivity].
      now rewrite variance_eq.
  Qed.

  Lemma ppb_sum : sumn (map (fun k => count (in_bin l k) xs) (seq 0 (length l - 1))) = length xs.
  Proof.
    apply (sumn_count (in_bin l)). intros x Hx. apply in_bin_eqb; auto.
  Qed.

  Lemma members_sum : sumq (map (fun k => sumq (members l xs es k)) (seq 0 (length l - 1))) = sumq es.
  Proof.
    unfold members. replace (sumq es) with (sumq (map snd (combine xs es))) by (now rewrite combine_map_snd by lia).
    apply (sumq_groups (fun k p => in_bin l k (fst p)) snd).
    intros [x e] Hp. apply in_combine_l in Hp. apply in_bin_eqb; auto.
  Qed.
End binning.

(** Points left of the first limit make the call raise ValueError. *)
Lemma compute_bin_effect_left xs es l x : (2 <= length l)%nat -> increasing l -> In x xs -> x < l@0 ->
  compute_bin_effect xs es l = Raise ValueError.
Proof.
  intros Hl Hi Hx Hlt. unfold compute_bin_effect.
  rewrite bin_indices_ok by (try assumption; intros ->; simpl in Hl; lia). unfold bind at 1.
  rewrite (bincount_w_neg _ _ _ (bidx l x)); [reflexivity|now apply in_map|].
  unfold bidx. pose proof EPS_pos.
  assert (W : weakly_increasing (add_last l EPS)) by (apply increasing_weak, add_last_increasing; [qlra|exact Hi]).
  assert (~ (0 < digitize1 (add_last l EPS) x)%nat); [|lia].
  rewrite <- (digitize1_iff _ _ _ W) by (rewrite add_last_length; lia). rewrite add_last_nth by lia.
  destruct (Nat.eqb_spec 0 (length l - 1)); [lia|]. qlra.
Qed.

(** * mean / variance facts *)
Lemma mean_const c l : l <> [] -> (forall e, In e l -> e = c) -> mean l = c.
Proof.
  intros Hn H. unfold mean. rewrite <- (map_id l) at 1. rewrite (sumq_map_ext _ (fun _ => c)) by exact H.
  rewrite sumq_const. field. apply qn_neq0. destruct l; [congruence|]. simpl. lia.
Qed.
Lemma mean_mul_len l : l <> [] -> mean l * qn (length l) = sumq l.
Proof. intros Hn. unfold mean. apply Qcdiv_mul, qn_neq0. destruct l; [congruence|]. simpl. lia. Qed.

Lemma variance_nonneg l : l <> [] -> 0 <= variance l.
Proof.
  intros Hn. rewrite variance_eq. apply Qcdiv_le_0.
  - apply sumq_nonneg. intros x Hx. apply in_map_iff in Hx as (e & <- & _). apply Qcsq_nonneg.
  - apply qn_pos. destruct l; [congruence|]. simpl. lia.
Qed.

Lemma variance_zero_iff l : l <> [] -> (variance l = 0 <-> forall a b, In a l -> In b l -> a = b).
Proof.
  intros Hn. assert (Hp : 0 < qn (length l)) by (apply qn_pos; destruct l; [congruence|]; simpl; lia).
  split.
  - intros H. rewrite variance_eq in H.
    assert (S0 : sumq (map (fun e => (e - mean l) * (e - mean l)) l) = 0).
    { rewrite <- (Qcdiv_mul (sumq _) (qn (length l))), H; [ring|qlra]. }
    assert (S1 : forall e, In e l -> e = mean l).
    { intros e He. apply sumq_zero_iff with (x := (e - mean l) * (e - mean l)) in S0.
      - apply Qcsq_0 in S0. qlra.
      - intros x Hx. apply in_map_iff in Hx as (e' & <- & _). apply Qcsq_nonneg.
      - apply in_map_iff. eauto. }
    intros a b Ha Hb. now rewrite (S1 a Ha), (S1 b Hb).
  - intros H. destruct l as [|c l]; [congruence|]. set (L := c :: l) in *.
    assert (Em : mean L = c) by (apply mean_const; [exact Hn|]; intros e He; apply H; [exact He|now left]).
    unfold variance. apply mean_const; [discriminate|].
    intros e He. apply in_map_iff in He as (e' & <- & He').
    rewrite Em, (H e' c He' (or_introl eq_refl)). ring.
Qed.

Lemma mean_bounds l a b : l <> [] -> (forall e, In e l -> a <= e <= b) -> a <= mean l <= b.
Proof.
  intros Hn H. assert (Hp : 0 < qn (length l)) by (apply qn_pos; destruct l; [congruence|]; simpl; lia).
  unfold mean. split.
  - apply Qcle_div_iff; [exact Hp|]. rewrite Qcmult_comm, <- (sumq_const a l). rewrite <- (map_id l) at 2.
    apply sumq_le. intros e He. now apply H.
  - apply Qcdiv_le_iff; [exact Hp|]. rewrite Qcmult_comm, <- (sumq_const b l). rewrite <- (map_id l) at 1.
    apply sumq_le. intros e He. now apply H.
Qed.
