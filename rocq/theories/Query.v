(** Where the model is asked (C96): two objects whose models agree at those points give the same answers. *)
From Verif Require Import Base Numpy Spec ALESpec NumpyFacts Utils UtilsProofs LocalProofs Helpers Integrate HelpersProofs Binning BinProofs LimitsProofs
  GlobalALE ALEState ALEHist ALESpecFacts ALEDefProofs OrderProofs.
Open Scope Qc_scope.
Open Scope list_scope.

Lemma Ok_inj {A} (a b : A) : Ok a = Ok b -> a = b.
Proof. congruence. Qed.
(** ** compute_local_effects looks at the model at the two limits of the bin of each instance *)
Definition at_limits (d : dtype) (l : list Qc) (f : nat) (R : list (list Qc)) (q : list Qc) : Prop :=
  exists r k, In r R /\ (S k < length l)%nat /\ l@k <= r@f /\ r@f < l@(S k) /\ (q = with_feature r f (store d l@k) \/ q = with_feature r f (store d l@(S k))).
Lemma vzip_ext {A B C} (F : B -> B -> C) (a a' b b' : A -> B) l : (forall r, In r l -> a r = a' r /\ b r = b' r) ->
  vzip F (map a l) (map b l) = vzip F (map a' l) (map b' l).
Proof.
  intros H. rewrite (map_ext_in a a'), (map_ext_in b b'); [reflexivity| |]; intros r Hr; now apply H.
Qed.
Lemma mapM_getn_lt (l : list Qc) ix u : mapM (getn l) ix = Ok u -> forall i, In i ix -> (i < length l)%nat.
Proof.
  revert u. induction ix as [|j ix IH]; intros u H i Hi; [contradiction|]. cbn [mapM] in H. apply bind_ok in H as (v & Hv & H). apply bind_ok in H as (w & Hw & _).
  destruct Hi as [<-|Hi]; [|eapply IH; eauto]. unfold getn in Hv. destruct (nth_error l j) eqn:E; [|discriminate]. apply nth_error_Some. congruence.
Qed.
Lemma getn_all (l : list Qc) ix : (forall i, In i ix -> (i < length l)%nat) -> mapM (getn l) ix = Ok (map (fun i => l@i) ix).
Proof. intros H. apply mapM_ok. intros i Hi. now apply getn_ok, H. Qed.
Lemma local_agree X g g' l f : (forall q, at_limits (dt X) (add_last l EPS) f (rows X) q -> g q = g' q) ->
  compute_local_effects X (map g) l f = compute_local_effects X (map g') l f.
Proof.
  intros A. unfold compute_local_effects, getcol. destruct (Nat.ltb f (dim X)); [|reflexivity]. cbn [bind].
  destruct (getn l 0) as [l0|e] eqn:G0; cbn [bind]; [|reflexivity].
  destruct (np_min (col (rows X) f)) as [mn|e] eqn:Emn; cbn [bind]; [|reflexivity].
  destruct (l0 <=? mn) eqn:L0; cbn [bind assert_]; [|reflexivity].
  destruct (getz l (-1)) as [lk|e] eqn:Gk; cbn [bind]; [|reflexivity].
  destruct (np_max (col (rows X) f)) as [mx|e] eqn:Emx; cbn [bind]; [|reflexivity].
  destruct (mx <=? lk) eqn:Lk; cbn [bind assert_]; [|reflexivity].
  cbv zeta. f_equal. set (l' := add_last l EPS) in *. apply Qcleb_le in L0, Lk.
  assert (HX : col (rows X) f <> []) by (intros E; rewrite E in Emn; discriminate).
  destruct (np_min_spec _ HX) as (mn' & E1 & _ & M1). rewrite Emn in E1. apply Ok_inj in E1. subst mn'.
  destruct (np_max_spec _ HX) as (mx' & E2 & I2 & M2). rewrite Emx in E2. apply Ok_inj in E2. subst mx'.
  assert (Ln : l <> []) by (intros ->; discriminate). assert (LL : (0 < length l)%nat) by (destruct l; [congruence|simpl; lia]).
  rewrite (getn_ok l 0 0) in G0 by exact LL. apply Ok_inj in G0. rewrite (getz_last l 0 Ln) in Gk. apply Ok_inj in Gk.
  assert (Ll : length l' = length l) by apply add_last_length.
  pose proof (M1 mx I2) as MM. pose proof EPS_pos as EP.
  unfold digitize. destruct (mono_incr l') eqn:MI.
  2:{ destruct (mono_decr l') eqn:MD; [|reflexivity]. apply mono_decr_ends in MD; [|intros E; apply (f_equal (@length Qc)) in E; simpl in E; lia].
      rewrite Ll in MD. unfold l' in MD. rewrite !add_last_nth in MD by lia. rewrite Nat.eqb_refl in MD.
      destruct (Nat.eqb_spec 0 (length l - 1)) as [Z|Z]; [|qlra].
      assert (length l = 1)%nat by lia. destruct l as [|a [|b l2]]; try (simpl in *; lia). discriminate MI. }
  apply mono_incr_iff in MI. cbn [bind].
  destruct (forallb _ _) eqn:FB; cbn [bind assert_]; [|reflexivity].
  unfold take. destruct (mapM (getn l') (map (digitize1 l') (col (rows X) f))) as [u|e] eqn:TU; cbn [bind]; [|reflexivity].
  pose proof (mapM_getn_lt _ _ _ TU) as LT. rewrite (getn_all _ _ LT) in TU. apply Ok_inj in TU. subst u.
  rewrite getn_all. 2:{ intros i Hi. apply in_map_iff in Hi as (j & <- & Hj). apply LT in Hj. lia. } cbn [bind].
  destruct (getn l' 0) as [z0|e]; cbn [bind]; [|reflexivity]. destruct (getn l' 1) as [z1|e]; cbn [bind]; [|reflexivity].
  unfold col. rewrite !map_map, !set_col_map, !map_map.
  rewrite (vzip_ext Qcminus _ (fun r => g' (list_set r f (store (dt X) l'@(digitize1 l' r@f)))) _ (fun r => g' (list_set r f (store (dt X) l'@(Nat.pred (digitize1 l' r@f)))))); [reflexivity|].
  intros r Hr. set (i := digitize1 l' r@f).
  assert (Hi : In i (map (digitize1 l') (col (rows X) f))) by (unfold col; rewrite map_map; apply in_map_iff; exists r; split; [reflexivity|exact Hr]).
  pose proof (LT i Hi) as Li. pose proof (proj1 (forallb_forall _ _) FB i Hi) as P. apply Nat.ltb_lt in P.
  assert (B1 : l'@(Nat.pred i) <= r@f) by (apply digitize1_iff; [exact MI|lia|fold i; lia]).
  assert (B2 : r@f < l'@i). { destruct (Qclt_le_dec r@f l'@i) as [Q|Q]; [exact Q|]. apply digitize1_iff in Q; [fold i in Q; lia|exact MI|lia]. }
  destruct i as [|i]; [lia|]. cbn [Nat.pred] in *. split; apply A; exists r, i; repeat split; auto; lia.
Qed.

(** ** The points the ALE of feature f asks the model at *)
Definition asked (c : config) (n cl f : nat) (q : list Qc) : Prop :=
  let lo := (c_mins c)@f in let hi := (c_maxs c)@f in let Z := inside_range lo hi f (rows (c_data c)) in
  exists l l', fixed_binning n cl (map (fun r => r@f) Z) lo hi l /\ widened l l' /\ at_limits (dt (c_data c)) l' f Z q.
(** The options of a method: the string 'fixed' stands for 20 bins, categorical up to 15 values. *)
Definition bins_of (m : method) (n cl : nat) : Prop := (m = MStr "fixed" /\ n = 20 /\ cl = 15)%nat \/ exists mp, m = MFixed n mp cl.
Lemma fixed_find_binning0 b n mp cl l : fixed_find b n mp cl = Ok (LArr l) -> (2 <= length l)%nat -> fixed_binning n cl (b_xs b) (b_lo b) (b_hi b) l.
Proof.
  intros H L. destruct n as [|n]; [|eapply fixed_find_binning; [lia|exact H]].
  destruct (fixed_find_inv b 0 mp cl l H) as (_ & [(LC & HC)|(_ & ->)]); [|simpl in L; lia].
  exists (unique (b_xs b)). split; [split; [apply unique_increasing|intros x; apply unique_in]|]. left.
  destruct HC as (H2 & E). split; [lia|].
  destruct (cat_limits_ok (unique (b_xs b)) H2) as (l2 & E2 & A & B & C & D). rewrite E in E2. injection E2 as <-.
  split; [exact A|]. split; [exact B|]. split; [|exact D]. intros k Hk. rewrite C by exact Hk.
  set (u := (unique (b_xs b))@k). set (v := (unique (b_xs b))@(S k)). clearbody u v. replace (Q2Qc 2) with (1 + 1) by (apply Qc_is_canon; reflexivity). field. discriminate.
Qed.
Definition but_model (c c' : config) : Prop :=
  c_data c = c_data c' /\ c_mins c = c_mins c' /\ c_maxs c = c_maxs c'.
Lemma ale_fit_agree c c' g g' f m : but_model c c' -> c_model c = map g -> c_model c' = map g' ->
  (forall n cl, bins_of m n cl -> forall q, asked c n cl f q -> g q = g' q) -> ale_fit_feature c f m = ale_fit_feature c' f m.
Proof.
  intros (DA & MI & MA) M1 M2 A. unfold ale_fit_feature. rewrite <- DA, <- MI, <- MA, M1, M2.
  destruct (getcol (c_data c) f) as [cc|e] eqn:GC; cbn [bind]; [|reflexivity].
  destruct (getn (c_mins c) f) as [lo|e] eqn:LO; cbn [bind]; [|reflexivity]. destruct (getn (c_maxs c) f) as [hi|e] eqn:HI; cbn [bind]; [|reflexivity].
  assert (KE : kept c' lo hi f = kept c lo hi f) by (unfold kept; now rewrite <- DA). rewrite KE. clear KE.
  assert (ELO : (c_mins c)@f = lo). { unfold getn in LO. destruct (nth_error (c_mins c) f) eqn:Q; [|discriminate]. apply Ok_inj in LO. subst. now apply nth_error_nth. }
  assert (EHI : (c_maxs c)@f = hi). { unfold getn in HI. destruct (nth_error (c_maxs c) f) eqn:Q; [|discriminate]. apply Ok_inj in HI. subst. now apply nth_error_nth. }
  match goal with |- bind ?Q _ = bind ?Q _ => destruct Q as [m'|e] eqn:EM end; cbn [bind]; [|reflexivity].
  destruct (find_limits (kept c lo hi f) None f (c_mins c, c_maxs c) m') as [[|l]|e] eqn:FL; cbn [bind]; try reflexivity.
  assert (LA : compute_local_effects (kept c lo hi f) (map g) l f = compute_local_effects (kept c lo hi f) (map g') l f).
  { apply local_agree. intros q Hq.
    assert (X : exists n mp cl, m' = MFixed n mp cl /\ bins_of m n cl).
    { unfold bins_of. destruct m as [s|n mp cl| |]; try discriminate EM.
      - destruct (String.eqb_spec s "fixed"); [|discriminate]. apply Ok_inj in EM. subst. do 3 eexists. split; [reflexivity|]. now left.
      - apply Ok_inj in EM. subst. do 3 eexists. split; [reflexivity|]. right. eauto. }
    destruct X as (n & mp & cl & -> & BO). apply (A n cl BO). unfold asked. cbv zeta. rewrite ELO, EHI.
    cbn [find_limits] in FL. unfold make_binner, getcol in FL. rewrite LO, HI in FL. cbn [bind] in FL. change (dim (kept c lo hi f)) with (dim (c_data c)) in FL.
    unfold getcol in GC. destruct (Nat.ltb f (dim (c_data c))); [|discriminate]. cbn [bind find_limits_b] in FL.
    assert (L2 : (2 <= length l)%nat). { destruct Hq as (r & k & _ & Hk & _). rewrite add_last_length in Hk. lia. }
    exists l, (add_last l EPS). split; [exact (fixed_find_binning0 _ n mp cl l FL L2)|]. split; [now apply widened_add_last|exact Hq]. }
  now rewrite LA.
Qed.

(** ** Histories: only the fits that take place have to agree *)
Section Two.
Variables c c' : config.
Variables E0 E0' : option Mat.
Variable P : nat -> method -> Prop.
Hypothesis KIND : default_method c = default_method c' /\ forall m, method_allowed c m = method_allowed c' m.
Hypothesis DIM : dim (c_data c) = dim (c_data c').
Hypothesis MINS : c_mins c = c_mins c'.
Hypothesis MAXS : c_maxs c = c_maxs c'.
Hypothesis FITS : forall f m, P f m -> pfit c E0 f m = pfit c' E0' f m.
Let agree := agree c c' E0 E0'.
Lemma q_norm p f ce : compute_norm_const c p f ce = compute_norm_const c' p f ce.
Proof. unfold compute_norm_const. now rewrite MINS, MAXS. Qed.
Lemma q_feature st st' f m : P f m -> agree st st' -> snd (fit_feature c st f m) = snd (fit_feature c' st' f m) /\ agree (fst (fit_feature c st f m)) (fst (fit_feature c' st' f m)).
Proof.
  intros HP [A1 A2 A3 A4 A5]. destruct (fit_feature_pure c E0 st f m A1) as (P1 & Q1). destruct (fit_feature_pure c' E0' st' f m A2) as (P2 & Q2).
  split; [now rewrite P1, P2, FITS|]. pose proof (fit_feature_fields c st f m) as (F1 & F2 & F3). pose proof (fit_feature_fields c' st' f m) as (G1 & G2 & G3).
  constructor; auto; intros k; congruence.
Qed.
Lemma q_one st st' f m ce : P f m -> agree st st' -> snd (fit_one c st f m ce) = snd (fit_one c' st' f m ce) /\ agree (fst (fit_one c st f m ce)) (fst (fit_one c' st' f m ce)).
Proof.
  intros HP A. destruct (q_feature st st' f m HP A) as (R & B). unfold fit_one.
  destruct (fit_feature c st f m) as (s1 & r1), (fit_feature c' st' f m) as (s2 & r2). cbn [fst snd] in R, B. subst r2.
  destruct r1 as [p|e]; [|split; [reflexivity|exact B]].
  destruct (agree_upd c c' E0 E0' s1 s2 f (p, None) ce B) as (B1 & _). destruct ce.
  - split; [reflexivity|]. now apply agree_upd.
  - rewrite <- q_norm. destruct (compute_norm_const c p f ZeroStart); (split; [reflexivity|]); [now apply agree_upd|exact B1].
  - rewrite <- q_norm. destruct (compute_norm_const c p f ZeroIntegral); (split; [reflexivity|]); [now apply agree_upd|exact B1].
Qed.
Lemma q_loop m ce fs : (forall f, In f fs -> P f m) -> forall st st', agree st st' -> snd (fit_loop c st fs m ce) = snd (fit_loop c' st' fs m ce) /\ agree (fst (fit_loop c st fs m ce)) (fst (fit_loop c' st' fs m ce)).
Proof.
  induction fs as [|f fs IH]; intros HP st st' A; [split; [reflexivity|exact A]|]. cbn [fit_loop]. destruct (q_one st st' f m ce (HP f (or_introl eq_refl)) A) as (R & B).
  destruct (fit_one c st f m ce) as (s1 & r1), (fit_one c' st' f m ce) as (s2 & r2). cbn [fst snd] in R, B. subst r2.
  destruct r1; [apply IH; [intros k Hk; apply HP; now right|exact B]|split; [reflexivity|exact B]].
Qed.
Lemma q_fit st st' fs m cv : (forall f, In f fs -> P f m) -> agree st st' -> snd (fit c st fs m cv) = snd (fit c' st' fs m cv) /\ agree (fst (fit c st fs m cv)) (fst (fit c' st' fs m cv)).
Proof.
  intros HP A. unfold fit. destruct KIND as (_ & MO). rewrite <- MO. destruct (method_allowed c m); [|split; [reflexivity|exact A]].
  destruct (prep_cent cv); [now apply q_loop|split; [reflexivity|exact A]].
Qed.
Lemma q_eval rt st st' f xs het cv : P f (default_method c) -> agree st st' -> snd (eval c rt st f xs het cv) = snd (eval c' rt st' f xs het cv) /\ agree (fst (eval c rt st f xs het cv)) (fst (eval c' rt st' f xs het cv)).
Proof.
  intros HP A. unfold eval. destruct (prep_cent cv) as [ce|e]; [|split; [reflexivity|exact A]].
  assert (EF : forall a a', agree a a' -> eval_fitted c rt a f xs het ce = eval_fitted c' rt a' f xs het ce) by (intros a a' HA; unfold eval_fitted; now rewrite MINS, MAXS, (ag_fe _ _ _ _ _ _ HA)).
  assert (RE : refit c st f ce = refit c' st' f ce) by (unfold refit; now rewrite DIM, (ag_fitted _ _ _ _ _ _ A), (ag_args _ _ _ _ _ _ A)). rewrite <- RE.
  destruct (refit c st f ce) as [[|]|e]; [|split; [now apply EF|exact A]|split; [reflexivity|exact A]].
  destruct KIND as (DE & _). rewrite <- DE. destruct (q_fit st st' [f] (default_method c) cv) as (R & B); [intros k [<-|[]]; exact HP|exact A|].
  destruct (fit c st [f] (default_method c) cv) as (s1 & r1), (fit c' st' [f] (default_method c) cv) as (s2 & r2). cbn [fst snd] in R, B. subst r2.
  destruct r1; (split; [|exact B]); [now apply EF|reflexivity].
Qed.
(** The fits of a history: the explicit ones, and the default one an eval may start. *)
Definition fits_of (ks : list call) (f : nat) (m : method) : Prop :=
  (exists fs cv, In (CallFit fs m cv) ks /\ In f fs) \/ (m = default_method c /\ exists xs het cv, In (CallEval f xs het cv) ks).
Lemma q_run rt ks : (forall f m, fits_of ks f m -> P f m) -> forall st st', agree st st' -> agree (run c rt st ks) (run c' rt st' ks).
Proof.
  unfold run. induction ks as [|k ks IH]; intros HP st st' A; [exact A|]. cbn [fold_left]. apply IH.
  - intros f m [(fs & cv & H1 & H2)|(E & xs & het & cv & H1)]; apply HP; [left; exists fs, cv; split; [now right|exact H2]|right; split; [exact E|exists xs, het, cv; now right]].
  - destruct k; simpl; [apply q_fit; [|exact A]; intros f0 Hf; apply HP; left; do 2 eexists; split; [now left|exact Hf]|].
    apply q_eval; [|exact A]. apply HP. right. split; [reflexivity|]. do 3 eexists. now left.
Qed.
Lemma same_answers_when rt ks f xs het cv : (forall f m, fits_of ks f m -> P f m) -> P f (default_method c) ->
  snd (eval c rt (run c rt (fresh E0) ks) f xs het cv) = snd (eval c' rt (run c' rt (fresh E0') ks) f xs het cv).
Proof. intros HP HD. apply q_eval; [exact HD|]. apply q_run; [exact HP|]. apply agree_fresh. Qed.
End Two.
