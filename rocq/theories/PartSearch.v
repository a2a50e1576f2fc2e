(** PartSearch: what single_level_splits and search_all_splits find. *)
From Verif Require Import Base Numpy Spec NumpyFacts Utils PartSpec Partition PartProofs.
Open Scope Qc_scope.
Open Scope list_scope.

Definition wf_regions (g : regions) : Prop :=
  length (g_foc_types g) = length (g_foc g) /\ aligned (rows (g_data g)) (g_effect g).

Lemma is_min_unique l a b : is_min l a -> is_min l b -> a = b.
Proof. intros [A1 A2] [B1 B2]. specialize (A2 b B1). specialize (B2 a A1). qlra. Qed.
Lemma is_max_unique l a b : is_max l a -> is_max l b -> a = b.
Proof. intros [A1 A2] [B1 B2]. specialize (A2 b B1). specialize (B2 a A1). qlra. Qed.
Lemma np_min_is l m : np_min l = Ok m -> is_min l m.
Proof.
  intros H. destruct l as [|a l]; [discriminate|]. destruct (np_min_spec (a :: l)) as (m' & E & I & L); [discriminate|].
  rewrite E in H. injection H as <-. split; assumption.
Qed.
Lemma np_max_is l m : np_max l = Ok m -> is_max l m.
Proof.
  intros H. destruct l as [|a l]; [discriminate|]. destruct (np_max_spec (a :: l)) as (m' & E & I & L); [discriminate|].
  rewrite E in H. injection H as <-. split; assumption.
Qed.
Lemma getcol_inv X f c : getcol X f = Ok c -> (f < dim X)%nat /\ c = values (rows X) f.
Proof. unfold getcol. destruct (Nat.ltb_spec f (dim X)); [|discriminate]. intros H'. injection H' as <-. split; [assumption|reflexivity]. Qed.

Lemma find_positions_cat_inv X f l : find_positions_cat X f = Ok l ->
  (f < dim X)%nat /\ forall p, In p l <-> candidate (rows X) 0 f Cat p.
Proof.
  unfold find_positions_cat. intros H. apply bind_ok in H as (c & H1 & H). injection H as <-.
  apply getcol_inv in H1 as [Hf ->]. split; [assumption|]. intros p. apply unique_in.
Qed.
Lemma find_positions_cont_inv X f n l : find_positions_cont X f n = Ok l ->
  (f < dim X)%nat /\ length l = n /\
  (exists lo hi, is_min (values (rows X) f) lo /\ is_max (values (rows X) f) hi /\ l = map (centre lo hi n) (seq 0 n)) /\
  forall p, In p l <-> candidate (rows X) n f Cont p.
Proof.
  unfold find_positions_cont. intros H. apply bind_ok in H as (c & H1 & H). apply bind_ok in H as (hi & H2 & H).
  apply bind_ok in H as (lo & H3 & H). injection H as <-.
  apply getcol_inv in H1 as [Hf ->]. apply np_max_is in H2. apply np_min_is in H3. split; [assumption|].
  split; [now rewrite map_length, seq_length|]. split; [exists lo, hi; auto|]. intros p. rewrite in_map_iff. split.
  - intros (i & <- & Hi). apply in_seq in Hi. exists lo, hi, i. repeat split; try apply H2; try apply H3. lia.
  - intros (lo' & hi' & i & Hlo & Hhi & Hi & ->). exists i. split; [|apply in_seq; lia].
    rewrite (is_min_unique _ _ _ Hlo H3), (is_max_unique _ _ _ Hhi H2). reflexivity.
Qed.
Lemma candidate_cat_n X n m f p : candidate X n f Cat p <-> candidate X m f Cat p.
Proof. reflexivity. Qed.

Lemma combine_nth_lt {A B} (l : list A) (m : list B) i d d' : (i < length l)%nat -> (i < length m)%nat ->
  nth i (combine l m) (d, d') = (nth i l d, nth i m d').
Proof.
  revert m i. induction l as [|a l IH]; intros [|b m] i; simpl; intros H1 H2; try lia. destruct i; [reflexivity|]. apply IH; lia.
Qed.

Lemma positions_inv g cands : length (g_foc_types g) = length (g_foc g) -> positions g = Ok cands ->
  length cands = length (g_foc g) /\
  forall i, (i < length (g_foc g))%nat ->
    (nth i (g_foc g) 0 < dim (g_data g))%nat /\
    (forall p, In p (nth i cands []) <->
       candidate (rows (g_data g)) (g_nof_splits g) (nth i (g_foc g) 0%nat) (nth i (g_foc_types g) Cont) p) /\
    match nth i (g_foc_types g) Cont with
    | Cat => nth i cands [] = unique (values (rows (g_data g)) (nth i (g_foc g) 0%nat))
    | Cont => length (nth i cands []) = g_nof_splits g
    end.
Proof.
  intros W H. unfold positions in H. apply mapM_Forall2 in H.
  apply Forall2_nth with (da := (0%nat, Cont)) (db := []) in H as [HL H].
  rewrite combine_length, W, Nat.min_id in HL. split; [congruence|]. intros i Hi.
  rewrite combine_length, W, Nat.min_id in H. specialize (H i Hi).
  rewrite combine_nth_lt in H by congruence. simpl fst in H; simpl snd in H.
  destruct (nth i (g_foc_types g) Cont).
  - pose proof H as H'. apply find_positions_cat_inv in H as [H1 H2].
    split; [assumption|]. split; [intros p; rewrite H2; apply candidate_cat_n|].
    unfold find_positions_cat in H'. apply bind_ok in H' as (c & E & H'). injection H' as <-. apply getcol_inv in E as [_ ->]. reflexivity.
  - apply find_positions_cont_inv in H as (H1 & H2 & _ & H3). auto.
Qed.

Lemma Ok_inj {A} (a b : A) : Ok a = Ok b -> a = b.
Proof. intros H. now injection H. Qed.
Lemma centre_mono lo hi n i j : lo <= hi -> (i <= j)%nat -> centre lo hi n i <= centre lo hi n j.
Proof.
  intros H Hij. unfold centre. assert (0 <= (hi - lo) / qn n) by (destruct n; [unfold Qcdiv; rewrite qn_0; change (/ 0) with 0; qlra|apply Qcmult_le_0; [qlra|apply Qclt_le_weak, Qcinv_pos, qn_pos; lia]]).
  pose proof (proj1 (qn_le i j) Hij) as K. assert ((qn i + Q2Qc (1#2)) * ((hi - lo) / qn n) <= (qn j + Q2Qc (1#2)) * ((hi - lo) / qn n)) by (apply Qcmul_le_compat_r; [assumption|qlra]). qlra.
Qed.
Lemma positions_sorted g cands : length (g_foc_types g) = length (g_foc g) -> positions g = Ok cands ->
  forall i, (i < length (g_foc g))%nat -> forall j j', (j <= j')%nat -> (j' < length (nth i cands []))%nat -> (nth i cands [])@j <= (nth i cands [])@j'.
Proof.
  intros W H. unfold positions in H. apply mapM_Forall2 in H.
  apply Forall2_nth with (da := (0%nat, Cont)) (db := []) in H as [HL H].
  rewrite combine_length, W, Nat.min_id in HL, H. intros i Hi j j' Hj Hj'. specialize (H i Hi).
  rewrite combine_nth_lt in H by congruence. simpl fst in H; simpl snd in H.
  destruct (nth i (g_foc_types g) Cont).
  - unfold find_positions_cat in H. apply bind_ok in H as (c & E & H). apply Ok_inj in H. rewrite <- H in *.
    destruct (Nat.eq_dec j j') as [->|N]; [apply Qcle_refl|]. apply Qclt_le_weak. apply (unique_increasing c); [lia|assumption].
  - apply find_positions_cont_inv in H as (_ & H1 & (lo & hi & [M1 M2] & [M3 M4] & E) & _). rewrite E in *. rewrite map_length, seq_length in Hj'.
    rewrite !nth_map_in with (d := 0%nat) by (rewrite seq_length; lia). rewrite !seq_nth by lia. apply centre_mono; [|lia]. now apply M2.
Qed.

Lemma table_row_inv g xs ojs before f t cands row : table_row g xs ojs before f t cands = Ok row ->
  length row = length cands /\ (length row <= width g)%nat /\
  forall j, (j < length cands)%nat -> evaluate_split (g_heter g) xs ojs before f cands@j t = Ok (nth j row (0, 0)).
Proof.
  intros H. unfold table_row in H. apply mapM_Forall2 in H. apply Forall2_nth with (da := (0%nat, 0)) (db := (0, 0)) in H as [HL H].
  rewrite enum_length in HL, H. split; [congruence|].
  assert (K : forall j, (j < length cands)%nat -> evaluate_split (g_heter g) xs ojs before f cands@j t = Ok (nth j row (0, 0)) /\ (j < width g)%nat).
  { intros j Hj. specialize (H j Hj). rewrite enum_nth in H by assumption. simpl fst in H; simpl snd in H.
    apply bind_ok in H as (v & E & H). destruct (Nat.ltb_spec j (width g)); [|discriminate]. injection H as <-. auto. }
  split; [|intros; now apply K].
  destruct (Nat.eq_dec (length row) 0) as [E|E]; [lia|]. specialize (K (length row - 1)%nat ltac:(lia)). lia.
Qed.
Lemma table_inv g xs ojs before cands tbl : length (g_foc_types g) = length (g_foc g) -> length cands = length (g_foc g) ->
  table g xs ojs before cands = Ok tbl ->
  length tbl = length (g_foc g) /\
  forall i, (i < length (g_foc g))%nat ->
    length (nth i tbl []) = length (nth i cands []) /\ (length (nth i tbl []) <= width g)%nat /\
    forall j, (j < length (nth i cands []))%nat ->
      evaluate_split (g_heter g) xs ojs before (nth i (g_foc g) 0%nat) (nth i cands [])@j (nth i (g_foc_types g) Cont)
      = Ok (nth j (nth i tbl []) (0, 0)).
Proof.
  intros W1 W2 H. unfold table in H. apply mapM_Forall2 in H.
  apply Forall2_nth with (da := ((0%nat, Cont), [])) (db := []) in H as [HL H].
  rewrite !combine_length, W1, W2, !Nat.min_id in HL, H. split; [congruence|]. intros i Hi. specialize (H i Hi).
  rewrite combine_nth_lt in H by (rewrite ?combine_length; lia). simpl fst in H; simpl snd in H.
  rewrite combine_nth_lt in H by congruence. simpl fst in H; simpl snd in H. now apply table_row_inv in H.
Qed.

(** The candidate (f, t, p) comes before the split [s] in the order of the conditioning features and, for the same
    feature, of the positions. *)
Definition earlier (g : regions) (s : split) (f : nat) (t : ftype) (p : Qc) : Prop :=
  exists i, nth_error (combine (g_foc g) (g_foc_types g)) i = Some (f, t) /\ ((i < s_i s)%nat \/ (i = s_i s /\ p < s_position s)).
Record best_split (g : regions) (xs : list Mat) (ojs : option (list Mat)) (before : list Qc) (s : split) : Prop := {
  bs_foc : nth_error (combine (g_foc g) (g_foc_types g)) (s_i s) = Some (s_feature s, s_type s);
  bs_dim : (s_feature s < dim (g_data g))%nat;
  bs_candidate : candidate (rows (g_data g)) (g_nof_splits g) (s_feature s) (s_type s) (s_position s);
  bs_eval : evaluate_split (g_heter g) xs ojs before (s_feature s) (s_position s) (s_type s) = Ok (s_drop s, s_wheter s);
  bs_sub : exists xs2 js2, split_all xs (s_feature s) (s_position s) (s_type s) = Ok xs2 /\
           split_effects xs ojs (s_feature s) (s_position s) (s_type s) = Ok js2 /\
           sub_heters (g_heter g) xs2 js2 = Ok (s_heter s) /\ s_nof s = map (@length _) xs2;
  bs_best : forall f t p, In (f, t) (combine (g_foc g) (g_foc_types g)) ->
            candidate (rows (g_data g)) (g_nof_splits g) f t p ->
            exists d w, evaluate_split (g_heter g) xs ojs before f p t = Ok (d, w) /\ d <= s_drop s /\ (earlier g s f t p -> d < s_drop s);
  bs_range : is_min (values (rows (g_data g)) (s_feature s)) (fst (s_range s)) /\
             is_max (values (rows (g_data g)) (s_feature s)) (snd (s_range s)) }.

Lemma single_level_inv g xs ojs before s : length (g_foc_types g) = length (g_foc g) ->
  single_level_splits g xs ojs before = Ok s -> best_split g xs ojs before s.
Proof.
  intros W H. unfold single_level_splits in H.
  apply bind_ok in H as (cands & Hc & H). apply bind_ok in H as (tbl & Ht & H). apply bind_ok in H as (k & Hk & H).
  apply bind_ok in H as (feature & H1 & H). apply bind_ok in H as (ci & H2 & H). apply bind_ok in H as (position & H3 & H).
  apply bind_ok in H as (t & H4 & H). apply bind_ok in H as (xs2 & H5 & H). apply bind_ok in H as (js2 & H6 & H).
  apply bind_ok in H as (sub & H7 & H). apply bind_ok in H as (c & H8 & H). apply bind_ok in H as (lo & H9 & H).
  apply bind_ok in H as (hi & H10 & H). apply bind_ok in H as (row & H11 & H). apply bind_ok in H as (cell & H12 & H).
  injection H as <-.
  pose proof (positions_sorted g cands W Hc) as HS. apply positions_inv in Hc as [HcL Hc]; [|assumption]. apply table_inv in Ht as [HtL Ht]; [|assumption..].
  set (w := width g) in *.
  set (i := (k / w)%nat) in *. set (j := (k mod w)%nat) in *.
  apply (getn_inv _ _ _ 0%nat) in H1 as [Hi H1]. apply (getn_inv _ _ _ []) in H2 as [_ H2]. apply (getn_inv _ _ _ 0) in H3 as [Hj H3].
  apply (getn_inv _ _ _ Cont) in H4 as [_ H4]. apply (getn_inv _ _ _ []) in H11 as [_ H11]. apply (getn_inv _ _ _ (0, 0)) in H12 as [_ H12].
  pose proof (Hc i Hi) as (Hd & Hcand & _). pose proof (Ht i Hi) as (HrL & HrW & Hev).
  assert (HW : forall r, In r tbl -> (length r <= w)%nat).
  { intros r Hr. apply (In_nth _ _ []) in Hr as (m & Hm & <-). apply Ht. congruence. }
  subst feature ci t row cell.
  assert (Hw : (0 < w)%nat) by lia.
  assert (Hj' : (j < w)%nat) by (apply Nat.mod_upper_bound; lia).
  assert (Ek : k = (i * w + j)%nat) by (unfold i, j; rewrite (Nat.div_mod k w) at 1 by lia; lia).
  apply argmax_spec in Hk as (HkL & HkM & HkF).
  assert (Vk : (flat_drops w tbl)@k = fst (nth j (nth i tbl []) (0, 0))).
  { rewrite Ek, flat_drops_nth; try assumption; [|congruence]. destruct (Nat.ltb_spec j (length (nth i tbl []))); [reflexivity|lia]. }
  rewrite flat_drops_length in HkM by assumption.
  constructor; cbn [s_feature s_position s_range s_candidates s_nof s_type s_heter s_i s_j s_drop s_wheter fst snd].
  - rewrite nth_error_nth' with (d := (0%nat, Cont)) by (rewrite combine_length, W, Nat.min_id; exact Hi). f_equal. apply combine_nth_lt; congruence.
  - assumption.
  - apply Hcand. rewrite <- H3. now apply nth_In.
  - rewrite <- H3. rewrite Hev by assumption. now destruct (nth j (nth i tbl []) (0, 0)).
  - exists xs2, js2. auto.
  - intros f t p Hin Hp.
    assert (KEY : forall i' j', (i' < length (g_foc g))%nat -> nth i' (combine (g_foc g) (g_foc_types g)) (0%nat, Cont) = (f, t) -> (j' < length (nth i' cands []))%nat -> (nth i' cands [])@j' = p ->
      evaluate_split (g_heter g) xs ojs before f p t = Ok (nth j' (nth i' tbl []) (0, 0)) /\ (flat_drops w tbl)@(i' * w + j') = fst (nth j' (nth i' tbl []) (0, 0)) /\ (i' * w + j' < length tbl * w)%nat /\ (j' < w)%nat).
    { intros i' j' Hi' E Hj1 Ep. rewrite combine_nth_lt in E by congruence. injection E as Ef Et.
      pose proof (Ht i' Hi') as (HrL' & HrW' & Hev'). specialize (Hev' j' Hj1). rewrite Ef, Et, Ep in Hev'. split; [assumption|].
      assert (Hlt : (i' * w + j' < length tbl * w)%nat) by nia. split; [|split; [assumption|lia]].
      rewrite flat_drops_nth; try assumption; try lia. destruct (Nat.ltb_spec j' (length (nth i' tbl []))) as [L|L]; [reflexivity|lia]. }
    apply (In_nth _ _ (0%nat, Cont)) in Hin as (i' & Hi' & E).
    rewrite combine_length, W, Nat.min_id in Hi'.
    assert (POS : forall i', (i' < length (g_foc g))%nat -> nth i' (combine (g_foc g) (g_foc_types g)) (0%nat, Cont) = (f, t) -> exists j', (j' < length (nth i' cands []))%nat /\ (nth i' cands [])@j' = p).
    { intros i1 Hi1 E1. rewrite combine_nth_lt in E1 by congruence. injection E1 as Ef Et. pose proof (Hc i1 Hi1) as (_ & Hcand' & _). rewrite Ef, Et in Hcand'.
      apply Hcand' in Hp. apply (In_nth _ _ 0) in Hp as (j' & Hj1 & Ep). now exists j'. }
    destruct (POS i' Hi' E) as (j' & Hj1 & Ep). destruct (KEY i' j' Hi' E Hj1 Ep) as (EV & FL & LT & _).
    destruct (nth j' (nth i' tbl []) (0, 0)) as [d wv] eqn:Ecell. exists d, wv. split; [assumption|]. cbn [fst] in FL.
    rewrite <- Vk. split; [rewrite <- FL; now apply HkM|]. clear POS.
    intros (i1 & E1 & OR). assert (Hi1 : (i1 < length (g_foc g))%nat).
    { assert (Q : nth_error (combine (g_foc g) (g_foc_types g)) i1 <> None) by congruence. apply nth_error_Some in Q. rewrite combine_length, W, Nat.min_id in Q. exact Q. }
    apply nth_error_nth with (d := (0%nat, Cont)) in E1. cbn [s_i s_position] in OR.
    destruct (Nat.eq_dec i1 i') as [->|NE].
    + assert (LK : (i' * w + j' < k)%nat).
      { rewrite Ek. destruct OR as [OR|[-> OR]]; [assert (j' < w)%nat by (destruct (KEY i' j' Hi' E Hj1 Ep) as (_ & _ & _ & Q); exact Q); nia|].
        assert (j' < j)%nat; [|lia]. destruct (Nat.lt_ge_cases j' j) as [|GE]; [assumption|exfalso]. specialize (HS i Hi j j' GE Hj1). rewrite Ep, H3 in HS. qlra. }
      specialize (HkF _ LK). now rewrite FL in HkF.
    + (* the same feature listed twice: both entries have the same value *)
      pose proof (Hc i1 Hi1) as (_ & Hcand1 & _). assert (E1' := E1). rewrite combine_nth_lt in E1' by congruence. injection E1' as Ef1 Et1. rewrite Ef1, Et1 in Hcand1.
      assert (Hp1 := Hp). apply Hcand1 in Hp1. apply (In_nth _ _ 0) in Hp1 as (j1 & Hj1' & Ep1). destruct (KEY i1 j1 Hi1 E1 Hj1' Ep1) as (EV1 & FL1 & LT1 & LW1).
      rewrite EV in EV1. apply Ok_inj in EV1. rewrite <- EV1 in FL1. cbn [fst] in FL1.
      assert (LK : (i1 * w + j1 < k)%nat).
      { rewrite Ek. destruct OR as [OR|[-> OR]]; [nia|]. assert (j1 < j)%nat; [|lia]. destruct (Nat.lt_ge_cases j1 j) as [|GE]; [assumption|exfalso].
        specialize (HS i Hi j j1 GE Hj1'). rewrite Ep1, H3 in HS. qlra. }
      specialize (HkF _ LK). now rewrite FL1 in HkF.
  - apply getcol_inv in H8 as [_ ->]. split; [now apply np_min_is|now apply np_max_is].
Qed.

(** evaluate_split in terms of the regions. *)
Lemma level_regions_length X cs n : length (level_regions X cs n) = (2 ^ n)%nat.
Proof. unfold level_regions. now rewrite map_length, paths_length. Qed.
Definition sizes X cs n := map (fun p => length (region X cs p)) (paths n).
Lemma sizes_eq X cs n : map (@length _) (level_regions X cs n) = sizes X cs n.
Proof. unfold level_regions, sizes. now rewrite map_map. Qed.
Lemma heterogeneities_length h X E cs ps hs : heterogeneities h X E cs ps hs -> length hs = length ps.
Proof. intros H. apply Forall2_nth with (da := []) (db := 0) in H as [H _]. congruence. Qed.
Lemma evaluate_level g cs before f p t : wf_regions g -> length before = (2 ^ length cs)%nat ->
  let X := rows (g_data g) in let E := g_effect g in
  forall d w, evaluate_split (g_heter g) (level_regions X cs (length cs)) (level_effects X E cs (length cs)) before f p t = Ok (d, w) <->
  exists hs, heterogeneities (g_heter g) X E (cs ++ [(f, t, p)]) (paths (S (length cs))) hs /\
    d = weighted (sizes X (cs ++ [(f, t, p)]) (S (length cs))) (drops before hs) /\
    w = weighted (sizes X (cs ++ [(f, t, p)]) (S (length cs))) hs.
Proof.
  intros [W1 W2] HB X E d w. unfold evaluate_split. rewrite split_all_level. unfold bind at 1.
  rewrite split_effects_level by assumption. unfold bind at 1. rewrite sizes_eq.
  assert (SC : forall hs, heterogeneities (g_heter g) X E (cs ++ [(f, t, p)]) (paths (S (length cs))) hs ->
    score before hs (sizes X (cs ++ [(f, t, p)]) (S (length cs))) =
    Ok (weighted (sizes X (cs ++ [(f, t, p)]) (S (length cs))) (drops before hs), weighted (sizes X (cs ++ [(f, t, p)]) (S (length cs))) hs)).
  { intros hs Hh. apply heterogeneities_length in Hh. rewrite paths_length in Hh. apply score_ok.
    - rewrite Hh, HB. simpl. lia.
    - unfold sizes. rewrite map_length, paths_length. congruence. }
  split.
  - intros H. apply bind_ok in H as (hs & H1 & H). apply sub_heters_level in H1. rewrite SC in H by assumption.
    injection H as <- <-. exists hs. auto.
  - intros (hs & H1 & -> & ->). assert (H2 := H1). apply sub_heters_level in H2. rewrite H2. unfold bind. now apply SC.
Qed.

(** * The search *)
(** What holds of the split number [l] of a search. *)
Record level_ok (g : regions) (h0 : Qc) (ss : list split) (l : nat) (s : split) : Prop := {
  lo_pop : forall p, In p (paths l) -> (g_min_points g <= length (region (rows (g_data g)) (map cond_of ss) p))%nat;
  lo_heter : heterogeneities (g_heter g) (rows (g_data g)) (g_effect g) (map cond_of ss) (paths (S l)) (s_heter s);
  lo_nof : s_nof s = sizes (rows (g_data g)) (map cond_of ss) (S l);
  lo_wheter : s_wheter s = weighted (s_nof s) (s_heter s);
  lo_drop : s_drop s = weighted (s_nof s) (drops (match l with O => [h0] | S l' => s_heter (nth l' ss s) end) (s_heter s));
  lo_foc : nth_error (combine (g_foc g) (g_foc_types g)) (s_i s) = Some (s_feature s, s_type s);
  lo_dim : (s_feature s < dim (g_data g))%nat;
  lo_candidate : candidate (rows (g_data g)) (g_nof_splits g) (s_feature s) (s_type s) (s_position s);
  lo_best : forall f t p, In (f, t) (combine (g_foc g) (g_foc_types g)) ->
     candidate (rows (g_data g)) (g_nof_splits g) f t p ->
     exists hs, heterogeneities (g_heter g) (rows (g_data g)) (g_effect g) (map cond_of (firstn l ss) ++ [(f, t, p)]) (paths (S l)) hs /\
       weighted (sizes (rows (g_data g)) (map cond_of (firstn l ss) ++ [(f, t, p)]) (S l))
                (drops (match l with O => [h0] | S l' => s_heter (nth l' ss s) end) hs) <= s_drop s /\
       (earlier g s f t p -> weighted (sizes (rows (g_data g)) (map cond_of (firstn l ss) ++ [(f, t, p)]) (S l))
                (drops (match l with O => [h0] | S l' => s_heter (nth l' ss s) end) hs) < s_drop s) }.

Lemma region_conds X ss1 ss2 p : (length p <= length ss1)%nat ->
  region X (map cond_of (ss1 ++ ss2)) p = region X (map cond_of ss1) p.
Proof.
  intros H. rewrite <- (region_firstn X (map cond_of (ss1 ++ ss2)) p (length ss1)) by assumption.
  rewrite firstn_map, firstn_app, firstn_all, Nat.sub_diag. simpl. now rewrite app_nil_r.
Qed.
Lemma region_effects_conds X E ss1 ss2 p : (length p <= length ss1)%nat ->
  region_effects X E (map cond_of (ss1 ++ ss2)) p = region_effects X E (map cond_of ss1) p.
Proof.
  intros H. rewrite <- (region_effects_firstn X E (map cond_of (ss1 ++ ss2)) p (length ss1)) by assumption.
  rewrite firstn_map, firstn_app, firstn_all, Nat.sub_diag. simpl. now rewrite app_nil_r.
Qed.
Lemma sizes_conds X ss1 ss2 n : (n <= length ss1)%nat -> sizes X (map cond_of (ss1 ++ ss2)) n = sizes X (map cond_of ss1) n.
Proof. intros H. unfold sizes. apply map_ext_in. intros p Hp. apply paths_len in Hp. rewrite region_conds by lia. reflexivity. Qed.
Lemma Forall2_impl_in {A B} (P Q : A -> B -> Prop) l l' : (forall a b, In a l -> P a b -> Q a b) -> Forall2 P l l' -> Forall2 Q l l'.
Proof. intros H F. induction F; constructor; [apply H; [now left|assumption]|apply IHF; intros; apply H; [now right|assumption]]. Qed.
Lemma heterogeneities_conds h X E ss1 ss2 n hs : (n <= length ss1)%nat ->
  heterogeneities h X E (map cond_of ss1) (paths n) hs -> heterogeneities h X E (map cond_of (ss1 ++ ss2)) (paths n) hs.
Proof.
  intros H. apply Forall2_impl_in. intros p v Hp Hv. apply paths_len in Hp.
  rewrite region_conds by lia. destruct E as [e|]; simpl in *; [rewrite region_effects_conds by lia|]; assumption.
Qed.
Lemma level_ok_app g h0 ss1 ss2 l s : (l < length ss1)%nat -> level_ok g h0 ss1 l s -> level_ok g h0 (ss1 ++ ss2) l s.
Proof.
  intros Hl [L1 L2 L3 L4 L5 L6 L7 L8 L9].
  assert (EN : match l with O => [h0] | S l' => s_heter (nth l' (ss1 ++ ss2) s) end = match l with O => [h0] | S l' => s_heter (nth l' ss1 s) end).
  { destruct l; [reflexivity|]. now rewrite app_nth1 by lia. }
  constructor; try assumption.
  - intros p Hp. rewrite region_conds by (apply paths_len in Hp; lia). now apply L1.
  - apply heterogeneities_conds; [lia|assumption].
  - rewrite L3. symmetry. apply sizes_conds. lia.
  - rewrite EN. assumption.
  - rewrite EN. intros f t p Hf Hp. rewrite firstn_app. replace (l - length ss1)%nat with 0%nat by lia.
    simpl. rewrite app_nil_r. now apply L9.
Qed.

Lemma existsb_false {A} (f : A -> bool) l : existsb f l = false -> forall a, In a l -> f a = false.
Proof.
  intros H a Ha. destruct (f a) eqn:E; [|reflexivity]. assert (existsb f l = true) by (apply existsb_exists; eauto). congruence.
Qed.

Lemma search_levels_inv g h0 n : wf_regions g -> forall acc ss,
  let X := rows (g_data g) in
  (forall l, (l < length acc)%nat -> forall d, level_ok g h0 acc l (nth l acc d)) ->
  g_heter g X (g_effect g) = Ok h0 ->
  search_levels g n (level_regions X (map cond_of acc) (length acc)) (level_effects X (g_effect g) (map cond_of acc) (length acc))
     (match length acc with O => [h0] | S l' => s_heter (nth l' acc (mkSplit 0 0 (0,0) [] [] Cont [] 0 0 0 0)) end) acc = Ok ss ->
  (exists tl, ss = acc ++ tl) /\ (length ss <= length acc + n)%nat /\
  (forall l, (l < length ss)%nat -> forall d, level_ok g h0 ss l (nth l ss d)) /\
  ((length ss < length acc + n)%nat -> exists p, In p (paths (length ss)) /\ (length (region X (map cond_of ss) p) < g_min_points g)%nat).
Proof.
  intros W. induction n as [|n IH]; intros acc ss X Hacc H0 H; simpl in H.
  - injection H as <-. split; [exists []; now rewrite app_nil_r|]. split; [lia|]. split; [assumption|lia].
  - destruct (existsb (fun x => Nat.ltb (length x) (g_min_points g)) (level_regions X (map cond_of acc) (length acc))) eqn:EX.
    + injection H as <-. split; [exists []; now rewrite app_nil_r|]. split; [lia|]. split; [assumption|].
      intros _. apply existsb_exists in EX as (x & Hx & Hlt). unfold level_regions in Hx. apply in_map_iff in Hx as (p & <- & Hp).
      exists p. split; [assumption|]. now apply Nat.ltb_lt.
    + destruct W as [W1 W2]. set (before := match length acc with O => [h0] | S l' => s_heter (nth l' acc (mkSplit 0 0 (0,0) [] [] Cont [] 0 0 0 0)) end) in *.
      apply bind_ok in H as (s & Hs & H).
      assert (Lc : length (map cond_of acc) = length acc) by apply map_length.
      rewrite <- Lc in H at 1 2. rewrite split_effects_level in H by assumption. unfold bind at 1 in H.
      rewrite <- Lc in H at 1. rewrite split_all_level in H. unfold bind at 1 in H.
      replace (map cond_of acc ++ [(s_feature s, s_type s, s_position s)]) with (map cond_of (acc ++ [s])) in H by now rewrite map_app.
      rewrite Lc in H. apply single_level_inv in Hs; [|assumption].
      assert (LB : length before = (2 ^ length (map cond_of acc))%nat).
      { unfold before. rewrite Lc. destruct (length acc) as [|l'] eqn:EL; [reflexivity|].
        specialize (Hacc l' ltac:(lia) (mkSplit 0 0 (0,0) [] [] Cont [] 0 0 0 0)). apply lo_heter in Hacc.
        apply heterogeneities_length in Hacc. now rewrite paths_length in Hacc. }
      assert (Enew : before = match length acc with O => [h0] | S l' => s_heter (nth l' (acc ++ [s]) s) end).
      { unfold before. destruct (length acc) as [|l'] eqn:EL; [reflexivity|]. rewrite app_nth1 by lia.
        f_equal. apply nth_indep. lia. }
      destruct Hs as [B1 B2 B3 B4 (xs2 & js2 & B5 & B6 & B7 & B8) B9 B10].
      rewrite <- Lc in B5, B6 at 1. rewrite split_all_level in B5. injection B5 as <-.
      rewrite <- Lc in B6 at 1. rewrite split_effects_level in B6 by assumption. injection B6 as <-.
      replace (map cond_of acc ++ [(s_feature s, s_type s, s_position s)]) with (map cond_of (acc ++ [s])) in B7, B8 by now rewrite map_app.
      rewrite Lc in B7, B8. rewrite sizes_eq in B8. apply sub_heters_level in B7.
      rewrite <- Lc in B4 at 1 2. apply evaluate_level in B4; [|split; assumption|assumption].
      destruct B4 as (hs & Hhs & Ed & Ew).
      replace (map cond_of acc ++ [(s_feature s, s_type s, s_position s)]) with (map cond_of (acc ++ [s])) in Hhs, Ed, Ew by now rewrite map_app.
      rewrite Lc in Hhs, Ed, Ew.
      assert (hs = s_heter s).
      { apply sub_heters_level in Hhs. apply sub_heters_level in B7.
        assert (Q : Ok hs = Ok (s_heter s)) by (etransitivity; [symmetry; exact Hhs|exact B7]). now injection Q. } subst hs.
      assert (Hnew : level_ok g h0 (acc ++ [s]) (length acc) s).
      { constructor; try assumption.
        - intros p Hp. rewrite region_conds by (apply paths_len in Hp; lia).
          pose proof (existsb_false _ _ EX (region X (map cond_of acc) p)) as Q. cbv beta in Q.
          apply Nat.ltb_ge. apply Q. unfold level_regions. now apply in_map.
        - now rewrite B8.
        - rewrite B8, <- Enew. assumption.
        - rewrite <- Enew. intros f t p Hf Hp. destruct (B9 f t p Hf Hp) as (d & w & Hev & Hle & Hlt0).
          rewrite <- Lc in Hev at 1 2. apply evaluate_level in Hev; [|split; assumption|assumption].
          destruct Hev as (hs & Hhs' & Ed' & _). exists hs. rewrite firstn_app, firstn_all, Nat.sub_diag. simpl firstn. rewrite app_nil_r.
          rewrite Lc in Hhs', Ed'. split; [assumption|]. rewrite <- Ed'. split; [exact Hle|exact Hlt0]. }
      specialize (IH (acc ++ [s]) ss).
      assert (LA : length (acc ++ [s]) = S (length acc)) by (rewrite app_length; simpl; lia).
      cbv zeta in IH. rewrite LA in IH. rewrite app_nth2, Nat.sub_diag in IH by lia. simpl nth in IH.
      destruct IH as (T1 & T2 & T3 & T4).
      * intros l Hl d. destruct (Nat.eq_dec l (length acc)) as [->|NE].
        { rewrite app_nth2, Nat.sub_diag by lia. simpl. assumption. }
        { rewrite app_nth1 by lia. apply level_ok_app; [lia|]. apply Hacc. lia. }
      * assumption.
      * exact H.
      * split; [destruct T1 as [tl ->]; exists ([s] ++ tl); now rewrite app_assoc|]. split; [lia|].
        split; [assumption|]. intros Hlt. apply T4. lia.
Qed.

Lemma search_inv g r ss : wf_regions g -> search_all_splits g = Ok (Some (r, ss)) ->
  r_nof r = length (rows (g_data g)) /\ g_heter g (rows (g_data g)) (g_effect g) = Ok (r_heter r) /\
  ss <> [] /\ (length ss <= g_max_levels g)%nat /\ (g_max_levels g <= length (g_foc g))%nat /\
  (forall l, (l < length ss)%nat -> forall d, level_ok g (r_heter r) ss l (nth l ss d)) /\
  ((length ss < g_max_levels g)%nat -> exists p, In p (paths (length ss)) /\ (length (region (rows (g_data g)) (map cond_of ss) p) < g_min_points g)%nat).
Proof.
  intros W H. unfold search_all_splits in H. apply bind_ok in H as (t & Ht & H).
  assert (K : (passert (Nat.leb (g_max_levels g) (length (g_foc g))) ;;
      h0 <- g_heter g (rows (g_data g)) (g_effect g) ;;
      ss <- search_levels g (g_max_levels g) [rows (g_data g)] (option_map (fun e => [e]) (g_effect g)) [h0] [] ;;
      match ss with [] => Ok None | _ => Ok (Some (mkRoot h0 (length (rows (g_data g))), ss)) end) = Ok (Some (r, ss))).
  { destruct t, (g_split_cat g); try assumption; discriminate. }
  clear H. apply bind_ok in K as (u & Hu & K). apply bind_ok in K as (h0 & Hh & K). apply bind_ok in K as (ss' & Hs & K).
  unfold assert_ in Hu. destruct (Nat.leb_spec (g_max_levels g) (length (g_foc g))) as [LE|]; [|discriminate].
  destruct ss' as [|s ss']; [discriminate|]. injection K as <- <-. simpl r_heter; simpl r_nof.
  assert (E1 : [rows (g_data g)] = level_regions (rows (g_data g)) (map cond_of []) (length (@nil split))) by (unfold level_regions; simpl; now rewrite region_nil).
  assert (E2 : option_map (fun e => [e]) (g_effect g) = level_effects (rows (g_data g)) (g_effect g) (map cond_of []) (length (@nil split))).
  { unfold level_effects. destruct W as [_ W]. destruct (g_effect g); simpl; [|reflexivity]. now rewrite region_effects_nil. }
  rewrite E1, E2 in Hs.
  apply (search_levels_inv g h0 (g_max_levels g) W [] (s :: ss')) in Hs; [|simpl; intros; lia|assumption].
  destruct Hs as (_ & A2 & A3 & A4). simpl length in A2, A4. repeat (split; [first [assumption|reflexivity|discriminate|simpl; lia]|]).
  intros Hlt. apply A4. simpl in Hlt. lia.
Qed.
