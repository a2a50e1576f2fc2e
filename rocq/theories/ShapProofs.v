(** ShapProofs: what a ShapDP object evaluates, after any history of calls. *)
From Verif Require Import Base Numpy Spec NumpyFacts Utils Helpers HelpersProofs GlobalALE ALEState PartSpec GlobalShap.
Open Scope Qc_scope.
Open Scope list_scope.

(** np.argsort returns a permutation of the positions that sorts the values. *)
Definition sorts (argsort : list Qc -> list nat) : Prop :=
  forall l, Permutation (argsort l) (seq 0 (length l)) /\ Sorted Qcle (map (fun i => l@i) (argsort l)).
(** The rows whose features listed in [T] are inside the limits. *)
Definition inside_limits (mins maxs : list Qc) (T : list nat) (r : list Qc) : bool :=
  forallb (fun f => (mins@f <=? r@f) && (r@f <=? maxs@f)) T.
Definition rows_inside (mins maxs : list Qc) (T : list nat) (Z : Mat) : Mat := filter (inside_limits mins maxs T) Z.

(** What is fitted for feature [f] on the instances [Z]: [pairs] are the (value, shap value) pairs sorted by value,
    [m] the spline through them and [s] the spline through the absolute residuals. *)
Definition shap_fit (explain : Mat -> res Mat) (spline : list Qc -> list Qc -> res (Qc -> Qc)) (Z : Mat) (f : nat)
    (pairs : list (Qc * Qc)) (m s : Qc -> Qc) : Prop :=
  exists V, explain Z = Ok V /\ Permutation pairs (combine (values Z f) (values V f)) /\ length pairs = length Z /\
    Sorted Qcle (map fst pairs) /\ spline (map fst pairs) (map snd pairs) = Ok m /\
    spline (map fst pairs) (map (fun p => Qcabs (snd p - m (fst p))) pairs) = Ok s.
(** The constant subtracted by centering; [n] is the number of points used for the integral. *)
Definition shap_shift (m : Qc -> Qc) (xx : list Qc) (ce : cent) (n : nat) (z : Qc) : Prop :=
  match ce with
  | NoCent => True
  | ZeroStart => z = m (xx@0)
  | ZeroIntegral => let a := xx@0 in let b := xx@(length xx - 1) in
      a <> b /\ z = trapz (map m (linspace a b n)) (linspace a b n) / (b - a)
  end.

Lemma nth_error_Some_nth {A} (l : list A) i a d : nth_error l i = Some a -> (i < length l)%nat /\ nth i l d = a.
Proof. intros H. split; [apply nth_error_Some; congruence|]. now apply nth_error_nth. Qed.
Lemma take_map_nth {A} (l : list A) d idx r : take l idx = Ok r -> r = map (fun i => nth i l d) idx /\ forall i, In i idx -> (i < length l)%nat.
Proof.
  unfold take. revert r. induction idx as [|i idx IH]; intros r H; simpl in H.
  - injection H as <-. split; [reflexivity|intros i []].
  - apply bind_ok in H as (a & H1 & H). apply bind_ok in H as (b & H2 & H). injection H as <-.
    unfold getn in H1. destruct (nth_error l i) eqn:E; [|discriminate]. injection H1 as ->.
    apply nth_error_Some_nth with (d := d) in E as [L E]. destruct (IH b H2) as [-> IL]. split; [simpl; now rewrite E|].
    intros j [<-|Hj]; auto.
Qed.
Lemma mapM_getn_col_ok (V : Mat) f yy : mapM (fun r => getn r f) V = Ok yy -> yy = values V f.
Proof.
  revert yy. induction V as [|r V IH]; intros yy H; simpl in H; [now injection H as <-|].
  apply bind_ok in H as (a & H1 & H). apply bind_ok in H as (b & H2 & H). injection H as <-. simpl. rewrite (IH b H2). f_equal.
  unfold getn in H1. destruct (nth_error r f) eqn:E; [|discriminate]. injection H1 as ->. now apply nth_error_Some_nth with (d := 0) in E as [_ ->].
Qed.
Lemma combine_nth_seq (a b : list Qc) : (length a <= length b)%nat -> combine a b = map (fun i => (a@i, b@i)) (seq 0 (length a)).
Proof.
  revert b. induction a as [|x a IH]; intros [|y b] H; simpl in *; try reflexivity; try lia.
  f_equal. rewrite <- seq_shift, map_map. apply IH. lia.
Qed.

Section S.
Variable c : sconfig.
Hypothesis SO : sorts (s_argsort c).

Definition wlim (T : list nat) (X : data) : data := mkData (dt X) (dim X) (rows_inside (s_mins c) (s_maxs c) T (rows X)).
Lemma wlim_nil X : wlim [] X = X.
Proof. unfold wlim, rows_inside. destruct X as [d n l]; simpl. f_equal. induction l as [|r l IH]; simpl; [reflexivity|now rewrite IH]. Qed.
Lemma drop_wlim T X f : drop_points_outside (wlim T X) (s_mins c)@f (s_maxs c)@f f = wlim (f :: T) X.
Proof.
  unfold drop_points_outside, wlim, rows_inside. simpl. f_equal. induction (rows X) as [|r l IH]; simpl; [reflexivity|].
  destruct (inside_limits (s_mins c) (s_maxs c) T r) eqn:E.
  - simpl. destruct (((s_mins c)@f <=? r@f)) eqn:E1; simpl.
    + destruct (r@f <=? (s_maxs c)@f); simpl; [f_equal|]; exact IH.
    + exact IH.
  - rewrite andb_false_r. exact IH.
Qed.
Lemma drop_eq X lo hi f : getn (s_mins c) f = Ok lo -> getn (s_maxs c) f = Ok hi ->
  forall T, drop_points_outside (wlim T X) lo hi f = wlim (f :: T) X.
Proof.
  intros E1 E2 T. rewrite <- drop_wlim. unfold getn in *.
  destruct (nth_error (s_mins c) f) eqn:A1; [|discriminate]. destruct (nth_error (s_maxs c) f) eqn:A2; [|discriminate].
  injection E1 as ->. injection E2 as ->. apply nth_error_Some_nth with (d := 0) in A1 as [_ ->]. now apply nth_error_Some_nth with (d := 0) in A2 as [_ ->].
Qed.

Definition entry_ok (Z : Mat) (f : nat) (ce : cent) (n : nat) (v : fitted_shap) : Prop :=
  exists pairs, shap_fit (s_explain c) (s_spline c) Z f pairs (f_mean v) (f_std v) /\ f_xx v = map fst pairs /\ f_yy v = map snd pairs /\
    (ce <> NoCent -> pairs <> []) /\ shap_shift (f_mean v) (f_xx v) ce n (f_norm v).

Lemma sfit_feature_ok X f ce pts X' v : sfit_feature c X f ce pts = (X', Ok v) -> forall X0 T, X = wlim T X0 ->
  X' = wlim (f :: T) X0 /\ (f < dim X)%nat /\
  exists n, (ce = ZeroIntegral -> spts_of pts = Ok n) /\ entry_ok (rows X') f ce n v.
Proof.
  intros H X0 T ->. unfold sfit_feature in H. destruct (Nat.ltb_spec f (dim (wlim T X0))) as [Hf|]; [|discriminate].
  destruct (getn (s_mins c) f) as [lo|e] eqn:E1; unfold bind at 1 in H; [|discriminate].
  destruct (getn (s_maxs c) f) as [hi|e] eqn:E2; unfold bind at 1 in H; [|discriminate].
  cbv beta iota zeta in H. rewrite (drop_eq X0 lo hi f E1 E2 T) in H. set (W := wlim (f :: T) X0) in *. clearbody W.
  injection H as <- H.
  apply bind_ok in H as (V & HV & H). apply bind_ok in H as (yy & Hy & H). apply bind_ok in H as (xx' & Hxx & H).
  apply bind_ok in H as (yy' & Hyy & H). apply bind_ok in H as (m & Hm & H). apply bind_ok in H as (r & Hr & H).
  apply bind_ok in H as (s & Hs & H). apply bind_ok in H as (z & Hz & H). injection H as <-.
  split; [reflexivity|]. split; [exact Hf|]. apply mapM_getn_col_ok in Hy. subst yy.
  change (col (rows W) f) with (values (rows W) f) in *.
  destruct (SO (values (rows W) f)) as [SP SS]. set (idx := s_argsort c (values (rows W) f)) in *.
  apply (take_map_nth _ 0) in Hxx as [Exx Lx]. apply (take_map_nth _ 0) in Hyy as [Eyy Ly].
  set (pairs := map (fun i => ((values (rows W) f)@i, (values V f)@i)) idx).
  assert (P1 : map fst pairs = xx') by (unfold pairs; rewrite map_map; symmetry; exact Exx).
  assert (P2 : map snd pairs = yy') by (unfold pairs; rewrite map_map; symmetry; exact Eyy).
  assert (LV : (length (values (rows W) f) <= length (values V f))%nat).
  { destruct (length (values (rows W) f)) as [|k] eqn:EL; [lia|]. assert (IK : In k idx) by (apply (Permutation_in k (Permutation_sym SP)); apply in_seq; lia).
    apply Ly in IK. lia. }
  assert (PL : length pairs = length (rows W)).
  { unfold pairs. rewrite map_length, (Permutation_length SP), seq_length. unfold values. apply map_length. }
  assert (ER : r = map (fun p => Qcabs (snd p - m (fst p))) pairs).
  { unfold vzip in Hr. rewrite <- P1, <- P2, !map_length, Nat.eqb_refl in Hr. injection Hr as <-. clear. induction pairs as [|p l IH]; simpl; [reflexivity|]. f_equal. exact IH. }
  assert (SF : shap_fit (s_explain c) (s_spline c) (rows W) f pairs m s).
  { exists V. split; [exact HV|]. split; [|split; [exact PL|split; [|split]]].
    - rewrite combine_nth_seq by exact LV. unfold pairs. apply Permutation_map. exact SP.
    - rewrite P1, Exx. exact SS.
    - rewrite P1, P2. exact Hm.
    - rewrite P1, <- ER. exact Hs. }
  assert (G0 : forall (l : list Qc) i a, getn l i = Ok a -> (i < length l)%nat /\ l@i = a).
  { intros l i a E. unfold getn in E. destruct (nth_error l i) eqn:EN; [|discriminate]. injection E as ->. now apply nth_error_Some_nth with (d := 0) in EN. }
  unfold snorm in Hz. destruct ce.
  - exists 0%nat. split; [discriminate|]. exists pairs. simpl. repeat split; auto; congruence.
  - apply bind_ok in Hz as (a & Ha & Hz). injection Hz as <-. apply G0 in Ha as [La <-]. exists 0%nat. split; [discriminate|].
    exists pairs. simpl. repeat split; auto. intros _ E. rewrite <- P1, E in La. simpl in La. lia.
  - apply bind_ok in Hz as (a & Ha & Hz). apply bind_ok in Hz as (b & Hb & Hz). apply bind_ok in Hz as (n & Hn & Hz).
    destruct (Qceqb_spec (b - a) 0) as [|NE]; [discriminate|]. injection Hz as <-. apply G0 in Ha as [La <-]. apply G0 in Hb as [_ <-].
    exists n. split; [intros _; exact Hn|]. exists pairs. simpl.
    split; [exact SF|]. split; [now symmetry|]. split; [now symmetry|]. split; [intros _ E; rewrite <- P1, E in La; simpl in La; lia|].
    split; [|reflexivity]. intros E. apply NE. rewrite E. ring.
Qed.

(** ** Histories *)
Definition stouches (f : nat) (k : scall) : Prop :=
  match k with SFit fs _ _ => In f fs | SEval g _ _ _ => f = g end.
Definition spoints (ks : list scall) (f n : nat) : Prop :=
  n = 100%nat \/ exists fs cv pts, In (SFit fs cv pts) ks /\ In f fs /\ spts_of pts = Ok n.

Variable X : data.
Definition shinv (P : nat -> Prop) (Q : nat -> nat -> Prop) (st : sstate) : Prop :=
  (exists T, (forall t, In t T -> P t) /\ ss_data st = wlim T X) /\
  (forall f, ss_fitted st f = true -> exists v ce n T, ss_fe st f = Some v /\ ss_args st f = Some ce /\ (ce = ZeroIntegral -> Q f n) /\
     In f T /\ (forall t, In t T -> P t) /\ entry_ok (rows_inside (s_mins c) (s_maxs c) T (rows X)) f ce n v).

Lemma sfit_one_shinv (P : nat -> Prop) (Q : nat -> nat -> Prop) st f ce pts : P f -> (forall n, spts_of pts = Ok n -> Q f n) ->
  shinv P Q st -> shinv P Q (fst (sfit_one c st f ce pts)) /\
    (forall u, snd (sfit_one c st f ce pts) = Ok u -> ss_fitted (fst (sfit_one c st f ce pts)) f = true /\ ss_args (fst (sfit_one c st f ce pts)) f = Some ce).
Proof.
  intros Pf Qf [(T & HT & ED) HF]. unfold sfit_one. destruct (sfit_feature c (ss_data st) f ce pts) as [X' [v|e]] eqn:E.
  - destruct (sfit_feature_ok _ _ _ _ _ _ E X T ED) as (EX & Hf & n & Hn & EO). split; [split|].
    + exists (f :: T). split; [intros t [<-|Ht]; auto|]. exact EX.
    + simpl. intros g Hg. unfold upd in *. destruct (Nat.eqb_spec g f) as [EG|NE]; [subst g|].
      * exists v, ce, n, (f :: T). split; [reflexivity|]. split; [reflexivity|]. split; [intros HZ; apply Qf; auto|]. split; [now left|].
        split; [intros t [<-|Ht]; auto|]. rewrite EX in EO. exact EO.
      * exact (HF g Hg).
    + simpl. intros u _. rewrite !upd_same. auto.
  - split; [|discriminate]. simpl. split; [|exact HF]. simpl.
    assert (EX : X' = ss_data st \/ X' = wlim (f :: T) X).
    { unfold sfit_feature in E. destruct (Nat.ltb f (dim (ss_data st))); [|injection E as <- _; now left].
      destruct (getn (s_mins c) f) as [lo|e1] eqn:E1; unfold bind at 1 in E; [|injection E as <- _; now left].
      destruct (getn (s_maxs c) f) as [hi|e2] eqn:E2; unfold bind at 1 in E; [|injection E as <- _; now left].
      cbv beta iota zeta in E. rewrite ED, (drop_eq X lo hi f E1 E2 T) in E. injection E as <- _. now right. }
    destruct EX as [-> | ->]; [exists T; auto|]. exists (f :: T). split; [|reflexivity]. intros t [<-|Ht]; auto.
Qed.
Lemma sfit_loop_shinv (P : nat -> Prop) (Q : nat -> nat -> Prop) fs : forall st ce pts, (forall f, In f fs -> P f) -> (forall f n, In f fs -> spts_of pts = Ok n -> Q f n) ->
  shinv P Q st -> shinv P Q (fst (sfit_loop c st fs ce pts)).
Proof.
  induction fs as [|f fs IH]; intros st ce pts HP HQ HI; [exact HI|]. simpl.
  destruct (sfit_one_shinv P Q st f ce pts) as [H1 _]; [apply HP; now left|intros; apply HQ; [now left|assumption]|exact HI|].
  destruct (sfit_one c st f ce pts) as [st' [u|e]]; [|exact H1]. apply IH; [intros; apply HP; now right|intros; eapply HQ; [now right|eassumption]|exact H1].
Qed.
Lemma shinv_mono (P P' : nat -> Prop) (Q Q' : nat -> nat -> Prop) st : (forall f, P f -> P' f) -> (forall f n, Q f n -> Q' f n) -> shinv P Q st -> shinv P' Q' st.
Proof.
  intros HP HQ [(T & HT & ED) HF]. split; [exists T; auto|]. intros f Hf. destruct (HF f Hf) as (v & ce & n & T' & H1 & H2 & H3 & H4 & H5 & H6).
  exists v, ce, n, T'. repeat split; auto.
Qed.
Lemma seval_shinv (P : nat -> Prop) (Q : nat -> nat -> Prop) st f xs het cv : P f -> Q f 100%nat -> shinv P Q st -> shinv P Q (fst (seval c st f xs het cv)).
Proof.
  intros Pf Qf HI. unfold seval. destruct (prep_cent cv) as [ce|e] eqn:EC; [|exact HI]. destruct (srefit st f ce) as [[|]|e]; [|exact HI..].
  unfold sfit. rewrite EC. assert (HL : shinv P Q (fst (sfit_loop c st [f] ce (PyInt 100)))).
  { apply sfit_loop_shinv; [intros g [<-|[]]; assumption| |assumption]. intros g n [<-|[]] E. injection E as <-. exact Qf. }
  destruct (sfit_loop c st [f] ce (PyInt 100)) as [st' [u|e]]; exact HL.
Qed.
Lemma shinv_fresh P Q : shinv P Q (sfresh X).
Proof. split; [exists []; split; [intros t []|symmetry; apply wlim_nil]|discriminate]. Qed.
Lemma srun_shinv (P : nat -> Prop) (Q : nat -> nat -> Prop) ks : forall st, (forall f k, In k ks -> stouches f k -> P f) -> (forall f, Q f 100%nat) ->
  (forall fs cv pts f n, In (SFit fs cv pts) ks -> In f fs -> spts_of pts = Ok n -> Q f n) -> shinv P Q st -> shinv P Q (srun c st ks).
Proof.
  induction ks as [|k ks IH]; intros st HP HQ HQ' HI; [exact HI|]. simpl. apply IH; auto.
  - intros f k' Hk. apply HP. now right.
  - intros fs cv pts f n Hk. eapply HQ'. right. exact Hk.
  - destruct k as [fs cv pts|f xs het cv]; simpl.
    + unfold sfit. destruct (prep_cent cv) as [ce|e]; [|exact HI]. apply sfit_loop_shinv; [| |exact HI].
      * intros f Hf. eapply HP; [now left|exact Hf].
      * intros f n Hf Hn. eapply HQ'; [now left|exact Hf|exact Hn].
    + apply seval_shinv; [|apply HQ|exact HI]. eapply HP; [now left|reflexivity].
Qed.

(** The result of eval after any history. *)
Lemma seval_history ks f xs het cv ce y h : prep_cent cv = Ok ce ->
  snd (seval c (srun c (sfresh X) ks) f xs het cv) = Ok (y, h) ->
  exists T pairs m s z n, In f T /\ (forall t, In t T -> t = f \/ exists k, In k ks /\ stouches t k) /\
    shap_fit (s_explain c) (s_spline c) (rows_inside (s_mins c) (s_maxs c) T (rows X)) f pairs m s /\
    spoints ks f n /\ (ce <> NoCent -> pairs <> []) /\ shap_shift m (map fst pairs) ce n z /\
    y = map (fun x => m x - match ce with NoCent => 0 | _ => z end) xs /\ h = (if het then Some (map s xs) else None) /\
    (s_mins c)@f < (s_maxs c)@f.
Proof.
  intros EC HE. set (st := srun c (sfresh X) ks) in *.
  set (P := fun t => t = f \/ exists k, In k ks /\ stouches t k). set (Q := spoints ks).
  assert (HI : shinv P Q st).
  { apply srun_shinv; [| | |apply shinv_fresh].
    - intros g k Hk Hg. right. eauto.
    - intros g. now left.
    - intros fs cv' pts g n Hk Hg Hn. right. eauto 6. }
  assert (FIN : forall st', shinv P Q st' -> ss_fitted st' f = true -> (ce <> NoCent -> ss_args st' f = Some ce) -> seval_fitted c st' f xs het ce = Ok (y, h) ->
    exists T pairs m s z n, In f T /\ (forall t, In t T -> P t) /\
    shap_fit (s_explain c) (s_spline c) (rows_inside (s_mins c) (s_maxs c) T (rows X)) f pairs m s /\
    Q f n /\ (ce <> NoCent -> pairs <> []) /\ shap_shift m (map fst pairs) ce n z /\
    y = map (fun x => m x - match ce with NoCent => 0 | _ => z end) xs /\ h = (if het then Some (map s xs) else None) /\ (s_mins c)@f < (s_maxs c)@f).
  { intros st' [_ HF] Hf HA HV. destruct (HF f Hf) as (v & ce0 & n & T & E1 & E2 & Hn & HT & HP & (pairs & SF & X1 & X2 & NE & SH)).
    unfold seval_fitted in HV. apply bind_ok in HV as (lo & H1 & HV). apply bind_ok in HV as (hi & H2 & HV). rewrite E1 in HV.
    apply bind_ok in HV as (u & H3 & HV). injection HV as <- <-. unfold assert_ in H3. destruct (Qcltb_spec lo hi) as [HL|]; [|discriminate].
    assert (LH : (s_mins c)@f < (s_maxs c)@f).
    { unfold getn in H1, H2. destruct (nth_error (s_mins c) f) eqn:A1; [|discriminate]. destruct (nth_error (s_maxs c) f) eqn:A2; [|discriminate].
      apply nth_error_Some_nth with (d := 0) in A1 as [_ ->]. apply nth_error_Some_nth with (d := 0) in A2 as [_ ->]. congruence. }
    exists T, pairs, (f_mean v), (f_std v), (f_norm v), (match ce with ZeroIntegral => n | _ => 100%nat end).
    split; [exact HT|]. split; [exact HP|]. split; [exact SF|].
    destruct ce; simpl.
    - split; [now left|]. split; [congruence|]. split; [trivial|]. split; [|split; [reflexivity|exact LH]].
      apply map_ext. intros x. ring.
    - rewrite (HA ltac:(discriminate)) in E2. injection E2 as <-. split; [now left|]. split; [exact NE|]. split; [rewrite <- X1; exact SH|].
      split; [|split; [reflexivity|exact LH]]. rewrite map_map. reflexivity.
    - rewrite (HA ltac:(discriminate)) in E2. injection E2 as <-. split; [apply Hn; reflexivity|]. split; [exact NE|]. split; [rewrite <- X1; exact SH|].
      split; [|split; [reflexivity|exact LH]]. rewrite map_map. reflexivity. }
  unfold seval in HE. rewrite EC in HE. destruct (srefit st f ce) as [b|e] eqn:ER; [|discriminate].
  assert (HR := ER). unfold srefit in HR. destruct (Nat.ltb f (dim (ss_data st))); [|discriminate].
  destruct b.
  - unfold sfit in HE. rewrite EC in HE. cbn [sfit_loop] in HE.
    destruct (sfit_one_shinv P Q st f ce (PyInt 100)) as [H1 H2]; [now left|intros n E; injection E as <-; now left|exact HI|].
    destruct (sfit_one c st f ce (PyInt 100)) as [st' [u|e]]; [|discriminate]. destruct (H2 u eq_refl) as [H3 H4].
    cbn [fst snd] in *. apply (FIN st'); auto.
  - cbn [snd] in HE. destruct (ss_fitted st f) eqn:EF; [|discriminate]. apply (FIN st); auto.
    intros NC. destruct ce; [congruence| |]; simpl in HR; destruct (ss_args st f) as [a|]; try discriminate; destruct a; try discriminate; reflexivity.
Qed.
End S.

(** ** Centering *)
Lemma trapz_from_shift m z pts : forall x0, (forall p, In p pts -> snd p = m (fst p)) ->
  trapz_from x0 (m x0 - z) (map (fun p : Qc * Qc => (fst p, snd p - z)) pts) = trapz_from x0 (m x0) pts - z * (last (map fst pts) x0 - x0).
Proof.
  induction pts as [|[x1 y1] pts IH]; intros x0 H; simpl; [ring|].
  assert (E : y1 = m x1) by (apply (H (x1, y1)); now left). subst y1. rewrite IH by (intros; apply H; now right).
  assert (L : last (map fst pts) x1 = match map fst pts with [] => x1 | _ :: _ => last (map fst pts) x0 end).
  { destruct (map fst pts) as [|a l]; [reflexivity|]. clear. revert a. induction l as [|b l IH]; intros a; [reflexivity|]. simpl in *. apply IH. }
  rewrite L. replace (Q2Qc 2) with (1 + 1) by (apply Qc_is_canon; reflexivity). field. intros E. apply (f_equal this) in E. discriminate.
Qed.
Lemma trapz_shift (m : Qc -> Qc) z g : g <> [] -> trapz (map (fun x => m x - z) g) g = trapz (map m g) g - z * (last g 0 - g@0).
Proof.
  destruct g as [|x0 g]; [congruence|]. intros _. unfold trapz. simpl.
  assert (E : combine g (map (fun x => m x - z) g) = map (fun p => (fst p, snd p - z)) (combine g (map m g))).
  { induction g as [|x g IH]; simpl; [reflexivity|]. now rewrite IH. }
  rewrite E, (trapz_from_shift m).
  - f_equal. f_equal. f_equal. rewrite combine_map_fst by now rewrite map_length. destruct g as [|b g]; [reflexivity|]. clear. revert b. induction g as [|b' g IH]; intros b; [reflexivity|]. simpl in *. apply IH.
  - intros p Hp. clear E. induction g as [|x g IH]; simpl in Hp; [destruct Hp|]. destruct Hp as [<-|Hp]; [reflexivity|auto].
Qed.

(** ** Histories of an object whose limits contain all instances *)
Definition all_inside (mins maxs : list Qc) (X : data) : Prop :=
  forall f r, (f < dim X)%nat -> In r (rows X) -> mins@f <= r@f <= maxs@f.
Section Inside.
Variable c : sconfig.
Variable X : data.
Hypothesis IN : all_inside (s_mins c) (s_maxs c) X.

Lemma sfit_feature_data f ce pts : fst (sfit_feature c X f ce pts) = X.
Proof.
  unfold sfit_feature. destruct (Nat.ltb_spec f (dim X)) as [Hf|]; [|reflexivity].
  destruct (getn (s_mins c) f) as [lo|e] eqn:E1; unfold bind at 1; [|reflexivity].
  destruct (getn (s_maxs c) f) as [hi|e] eqn:E2; unfold bind at 1; [|reflexivity]. cbn [fst].
  assert (G : forall l a, getn l f = Ok a -> l@f = a).
  { intros l a E. unfold getn in E. destruct (nth_error l f) eqn:EN; [|discriminate]. injection E as ->. now apply nth_error_Some_nth with (d := 0) in EN as [_ ?]. }
  apply G in E1, E2. unfold drop_points_outside. destruct X as [d n l]. simpl in *. f_equal. specialize (IN f). simpl in IN. clear -IN E1 E2 Hf.
  induction l as [|r l IH]; simpl; [reflexivity|]. destruct (IN r Hf (or_introl eq_refl)) as [A B].
  change (nth f r 0) with (r@f). rewrite E1 in A. rewrite E2 in B. apply Qcleb_le in A, B. rewrite A. simpl. change (nth f r 0) with (r@f). rewrite B. f_equal. apply IH.
  intros r' _ Hr. apply IN; [assumption|now right].
Qed.
(** Fitting with another centering only changes the constant. *)
Lemma sfit_feature_other f ce ce' pts pts' v : snd (sfit_feature c X f ce pts) = Ok v ->
  snd (sfit_feature c X f ce' pts') = (z <- snorm (f_mean v) (f_xx v) ce' pts' ;; Ok (mkFS (f_mean v) (f_std v) (f_xx v) (f_yy v) z)).
Proof.
  unfold sfit_feature. destruct (Nat.ltb f (dim X)); [|discriminate].
  destruct (getn (s_mins c) f) as [lo|e]; [|discriminate]. destruct (getn (s_maxs c) f) as [hi|e]; [|discriminate].
  set (X' := drop_points_outside X lo hi f). intros H. cbn [bind snd] in H. change (bind (Ok lo) _) with (@Ok (Qc * Qc) (lo, hi)). cbv beta iota. fold X'. cbn [snd].
  change (drop_points_outside X lo hi f) with X' in H.
  apply bind_ok in H as (V & HV & H). apply bind_ok in H as (yy & Hy & H). apply bind_ok in H as (xx' & Hxx & H).
  apply bind_ok in H as (yy' & Hyy & H). apply bind_ok in H as (m & Hm & H). apply bind_ok in H as (r & Hr & H).
  apply bind_ok in H as (s & Hs & H). apply bind_ok in H as (z & Hz & H). injection H as <-. cbn [f_mean f_std f_xx f_yy].
  rewrite HV. unfold bind at 1. rewrite Hy. unfold bind at 1. rewrite Hxx. unfold bind at 1. rewrite Hyy. unfold bind at 1.
  rewrite Hm. unfold bind at 1. rewrite Hr. unfold bind at 1. rewrite Hs. unfold bind at 1. reflexivity.
Qed.

Definition scall_default (k : scall) : Prop := match k with SFit _ _ pts => pts = PyInt 100 | SEval _ _ _ _ => True end.
Definition sinv (st : sstate) : Prop :=
  ss_data st = X /\ forall f, ss_fitted st f = true -> exists v ce, ss_fe st f = Some v /\ ss_args st f = Some ce /\ snd (sfit_feature c X f ce (PyInt 100)) = Ok v.
Lemma sfit_one_sinv st f ce : sinv st -> sinv (fst (sfit_one c st f ce (PyInt 100))) /\
  snd (sfit_one c st f ce (PyInt 100)) = (_ <- snd (sfit_feature c X f ce (PyInt 100)) ;; Ok tt) /\
  (forall v, snd (sfit_feature c X f ce (PyInt 100)) = Ok v -> ss_fe (fst (sfit_one c st f ce (PyInt 100))) f = Some v).
Proof.
  intros [HD HF]. unfold sfit_one. rewrite HD. destruct (sfit_feature c X f ce (PyInt 100)) as [X' [v|e]] eqn:E;
    assert (EX : X' = X) by (rewrite <- (sfit_feature_data f ce (PyInt 100)), E; reflexivity); subst X'; simpl.
  - split; [split; [reflexivity|]|split; [reflexivity|]]; simpl.
    + intros g Hg. unfold upd in *. destruct (Nat.eqb_spec g f) as [EG|NE]; [subst g|].
      * exists v, ce. rewrite E. auto.
      * apply HF. exact Hg.
    + intros v' Hv. injection Hv as ->. apply upd_same.
  - split; [split; [reflexivity|exact HF]|]. split; [reflexivity|discriminate].
Qed.
Lemma sfit_loop_sinv fs : forall st ce, sinv st -> sinv (fst (sfit_loop c st fs ce (PyInt 100))).
Proof.
  induction fs as [|f fs IH]; intros st ce HI; [exact HI|]. simpl. destruct (sfit_one_sinv st f ce HI) as [H1 _].
  destruct (sfit_one c st f ce (PyInt 100)) as [st' [u|e]]; [apply IH; exact H1|exact H1].
Qed.
Lemma sstep_sinv st k : scall_default k -> sinv st -> sinv (sstep c st k).
Proof.
  intros HK HI. destruct k as [fs cv pts|f xs het cv]; simpl in *.
  - subst pts. unfold sfit. destruct (prep_cent cv); [apply sfit_loop_sinv|]; exact HI.
  - unfold seval. destruct (prep_cent cv) as [ce|e] eqn:EC; [|exact HI]. destruct (srefit st f ce) as [[|]|e]; try exact HI.
    unfold sfit. rewrite EC. pose proof (sfit_loop_sinv [f] st ce HI) as HL. destruct (sfit_loop c st [f] ce (PyInt 100)) as [st' [u|e]]; exact HL.
Qed.
Lemma srun_sinv ks : forall st, Forall scall_default ks -> sinv st -> sinv (srun c st ks).
Proof.
  induction ks as [|k ks IH]; intros st HK HI; [exact HI|]. inversion HK as [|? ? HK1 HK2]. simpl. apply IH; [exact HK2|]. now apply sstep_sinv.
Qed.
(** The result of eval as a function of the data. *)
Definition pure_eval (f : nat) (xs : list Qc) (het : bool) (ce : cent) : res (list Qc * option (list Qc)) :=
  v <- snd (sfit_feature c X f ce (PyInt 100)) ;;
  lo <- getn (s_mins c) f ;; hi <- getn (s_maxs c) f ;;
  passert (lo <? hi) ;;
  Ok (match ce with NoCent => map (f_mean v) xs | _ => map (fun t => t - f_norm v) (map (f_mean v) xs) end,
      if het then Some (map (f_std v) xs) else None).
Lemma seval_pure st f xs het cv ce : sinv st -> prep_cent cv = Ok ce -> (f < dim X)%nat ->
  snd (seval c st f xs het cv) = pure_eval f xs het ce.
Proof.
  intros HI EC Hf. unfold seval. rewrite EC. unfold srefit. destruct HI as [HD HF] eqn:EHI. clear EHI. rewrite HD. destruct (Nat.ltb_spec f (dim X)); [|lia].
  assert (REFIT : snd (match sfit c st [f] cv (PyInt 100) with (st', Ok _) => (st', seval_fitted c st' f xs het ce) | (st', Raise e) => (st', Raise e) end) = pure_eval f xs het ce).
  { unfold sfit. rewrite EC. cbn [sfit_loop]. destruct (sfit_one_sinv st f ce (conj HD HF)) as (H1 & H2 & H3). unfold pure_eval.
    destruct (sfit_one c st f ce (PyInt 100)) as [st' [u|e]]; cbn [fst snd] in *;
      destruct (snd (sfit_feature c X f ce (PyInt 100))) as [v|e']; unfold bind in H2; try discriminate.
    - unfold bind at 1. unfold seval_fitted. rewrite (H3 v eq_refl). reflexivity.
    - injection H2 as ->. reflexivity. }
  destruct (ss_fitted st f) eqn:EF; [|exact REFIT]. destruct (HF f EF) as (v & ce0 & F1 & F2 & F3). simpl negb. cbv iota.
  assert (DONE : ce = NoCent \/ ce = ce0 -> snd (st, seval_fitted c st f xs het ce) = pure_eval f xs het ce).
  { intros HC. cbn [snd]. unfold seval_fitted, pure_eval. rewrite F1. destruct HC as [-> | ->].
    - rewrite (sfit_feature_other f ce0 NoCent (PyInt 100) (PyInt 100) v F3). reflexivity.
    - rewrite F3. reflexivity. }
  destruct ce; [apply DONE; now left| |]; rewrite F2; destruct ce0; simpl; first [apply DONE; right; reflexivity|exact REFIT].
Qed.
Lemma sinv_fresh : sinv (sfresh X). Proof. split; [reflexivity|discriminate]. Qed.
Lemma seval_dim_raises st f xs het cv : ss_data st = X -> (dim X <= f)%nat -> snd (seval c st f xs het cv) = (_ <- prep_cent cv ;; Raise IndexError).
Proof.
  intros HD Hf. unfold seval. destruct (prep_cent cv) as [ce|e]; [|reflexivity]. unfold srefit. rewrite HD. destruct (Nat.ltb_spec f (dim X)); [lia|reflexivity].
Qed.
Lemma seval_history_independent ks f xs het cv : Forall scall_default ks ->
  snd (seval c (srun c (sfresh X) ks) f xs het cv) = snd (seval c (sfresh X) f xs het cv).
Proof.
  intros HK. pose proof (srun_sinv ks (sfresh X) HK sinv_fresh) as HI. destruct (le_lt_dec (dim X) f) as [Hf|Hf].
  - rewrite !seval_dim_raises; auto. apply HI.
  - destruct (prep_cent cv) as [ce|e] eqn:EC.
    + rewrite !(seval_pure _ f xs het cv ce) by (assumption || apply sinv_fresh). reflexivity.
    + unfold seval. rewrite EC. reflexivity.
Qed.
End Inside.
