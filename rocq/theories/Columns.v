(** Columns: two objects on the same instances, the second seeing only some of the columns, in its own order (proofs for C90). *)
From Verif Require Import Base Numpy Spec NumpyFacts Utils UtilsProofs Helpers HelpersProofs Integrate Binning GlobalALE GlobalPDP ALEState ALEHist PDPProofs RegOrder OrderProofs.
Open Scope Qc_scope.
Open Scope list_scope.

(** The row reduced to the columns [sel], in that order. *)
Definition pick (sel : list nat) (r : list Qc) : list Qc := map (fun s => r@s) sel.
Definition pick_data (sel : list nat) (X : data) : data := mkData (dt X) (length sel) (map (pick sel) (rows X)).

Lemma Forall_filter_ {A} (P : A -> Prop) (p : A -> bool) l : Forall P l -> Forall P (filter p l).
Proof. intros H. apply Forall_forall. intros a I. apply filter_In in I. eapply Forall_forall; [exact H|tauto]. Qed.

Lemma mapM_nth_ok {A} (f : nat -> res A) (ks : list nat) r i d : mapM f ks = Ok r -> (i < length ks)%nat -> f (nth i ks 0%nat) = Ok (nth i r d).
Proof.
  revert r i. induction ks as [|k ks IH]; intros r i H Hi; [simpl in Hi; lia|]. cbn [mapM] in H. apply bind_ok in H as (a & H1 & H). apply bind_ok in H as (q & H2 & H). injection H as <-.
  destruct i as [|i]; [exact H1|]. simpl in *. apply IH; [exact H2|lia].
Qed.

Section Sel.
Variable sel : list nat.
Variable D : nat.
Hypothesis ND : NoDup sel.
Hypothesis IN : forall s, In s sel -> (s < D)%nat.
Notation n := (length sel).
Definition old (j : nat) : nat := nth j sel 0%nat.
Lemma old_lt j : (j < n)%nat -> (old j < D)%nat. Proof. intros H. apply IN. now apply nth_In. Qed.
Lemma old_inj i j : (i < n)%nat -> (j < n)%nat -> old i = old j -> i = j.
Proof. intros Hi Hj. apply (proj1 (NoDup_nth sel 0%nat) ND); assumption. Qed.
Lemma pick_length r : length (pick sel r) = n. Proof. apply map_length. Qed.
Lemma pick_nth r j : (j < n)%nat -> (pick sel r)@j = r@(old j).
Proof. intros H. unfold pick. now rewrite (nth_map_in _ _ _ 0%nat) by exact H. Qed.
Lemma pick_updn r j h : length r = D -> (j < n)%nat -> pick sel (list_updn r (old j) h) = list_updn (pick sel r) j h.
Proof.
  intros L H. apply (nth_ext _ _ 0 0); [now rewrite list_updn_length, !pick_length|]. rewrite pick_length. intros i Hi.
  rewrite pick_nth by exact Hi. rewrite !list_updn_nth by (rewrite ?pick_length, ?L; auto using old_lt). rewrite !pick_nth by assumption.
  destruct (Nat.eqb_spec i j) as [->|E]; [now rewrite Nat.eqb_refl|]. destruct (Nat.eqb_spec (old i) (old j)) as [E'|]; [|reflexivity]. exfalso. now apply E, old_inj.
Qed.
Lemma pick_set r j v : length r = D -> (j < n)%nat -> pick sel (list_set r (old j) v) = list_set (pick sel r) j v.
Proof. intros. now apply pick_updn. Qed.
Lemma pick_col (X : Mat) j : (j < n)%nat -> col (map (pick sel) X) j = col X (old j).
Proof. intros H. unfold col. rewrite map_map. apply map_ext. intros r. now apply pick_nth. Qed.
Lemma pick_getn l j : length l = D -> (j < n)%nat -> getn (pick sel l) j = getn l (old j).
Proof. intros L H. rewrite (getn_ok _ _ 0) by now rewrite pick_length. rewrite (getn_ok _ _ 0) by (rewrite L; now apply old_lt). now rewrite pick_nth. Qed.
Lemma pick_filter (p : Qc -> bool) (X : Mat) j : (j < n)%nat -> filter (fun r => p (r@j)) (map (pick sel) X) = map (pick sel) (filter (fun r => p (r@(old j))) X).
Proof. intros H. rewrite filter_map_comm. f_equal. apply filter_ext. intros r. now rewrite pick_nth. Qed.

Variables g g' : list Qc -> Qc.
Hypothesis GG : forall r, length r = D -> g' (pick sel r) = g r.
Definition square (X : Mat) : Prop := Forall (fun r => length r = D) X.
Lemma map_models X : square X -> map g' (map (pick sel) X) = map g X.
Proof. intros S0. rewrite map_map. apply map_ext_in. intros r I. apply GG. eapply Forall_forall in S0; eauto. Qed.
Lemma set_col_pick X j vs : square (rows X) -> (j < n)%nat -> set_col (pick_data sel X) j vs = map (pick sel) (set_col X (old j) vs) /\ square (set_col X (old j) vs).
Proof.
  intros Q H. unfold set_col, pick_data. cbn [dt rows]. revert vs. induction Q as [|r Z L Q IH]; intros [|v vs]; cbn [map combine]; try (split; [reflexivity|constructor]).
  destruct (IH vs) as (E & W). split; [f_equal; [|exact E]|constructor; [|exact W]]; cbn [fst snd]; [now rewrite pick_set|now rewrite list_set_length].
Qed.
Lemma local_effects_pick X l j : dim X = D -> square (rows X) -> (j < n)%nat ->
  compute_local_effects (pick_data sel X) (map g') l j = compute_local_effects X (map g) l (old j).
Proof.
  intros DX Q H. unfold compute_local_effects, getcol. rewrite DX. cbn [dim pick_data rows].
  rewrite (proj2 (Nat.ltb_lt j n) H), (proj2 (Nat.ltb_lt (old j) D) (old_lt _ H)). rewrite pick_col by exact H.
  assert (V : forall u w, vzip Qcminus (map g' (set_col (pick_data sel X) j u)) (map g' (set_col (pick_data sel X) j w)) = vzip Qcminus (map g (set_col X (old j) u)) (map g (set_col X (old j) w))).
  { intros u w. destruct (set_col_pick X j u Q H) as (-> & S1), (set_col_pick X j w Q H) as (-> & S2). now rewrite !map_models. }
  set (C := col (rows X) (old j)). fold (pick_data sel X).
  destruct (x <- Ok C ;; _) as [c0|e]; [|reflexivity]. f_equal.
  destruct (digitize c0 (add_last l EPS)) as [ind|e]; cbn [bind]; [|reflexivity]. destruct (forallb _ ind); cbn [bind]; [|reflexivity].
  destruct (take (add_last l EPS) ind) as [u|e]; cbn [bind]; [|reflexivity]. destruct (take (add_last l EPS) (map Nat.pred ind)) as [w|e]; cbn [bind]; [|reflexivity].
  destruct (getn (add_last l EPS) 0) as [l0|e]; cbn [bind]; [|reflexivity]. destruct (getn (add_last l EPS) 1) as [l1|e]; cbn [bind]; [|reflexivity].
  cbv zeta. now rewrite V.
Qed.
Lemma find_limits_pick X (E E' : option Mat) mins maxs j m : dim X = D -> length mins = D -> length maxs = D -> (j < n)%nat ->
  match E, E' with Some e, Some e' => e' = map (pick sel) e | None, None => True | _, _ => False end ->
  find_limits (pick_data sel X) E' j (pick sel mins, pick sel maxs) m = find_limits X E (old j) (mins, maxs) m.
Proof.
  intros DX L1 L2 H EE.
  assert (B : make_binner (pick_data sel X) E' j (Some (pick sel mins, pick sel maxs)) = make_binner X E (old j) (Some (mins, maxs))).
  { unfold make_binner. rewrite !pick_getn by assumption. destruct (getn mins (old j)); [|reflexivity]. destruct (getn maxs (old j)); [|reflexivity]. cbn [bind].
    unfold getcol. rewrite DX. cbn [dim pick_data rows]. rewrite (proj2 (Nat.ltb_lt j n) H), (proj2 (Nat.ltb_lt (old j) D) (old_lt _ H)). cbn [bind]. rewrite pick_col by exact H.
    destruct E as [e|], E' as [e'|]; try contradiction; [|reflexivity]. subst e'. now rewrite pick_col. }
  unfold find_limits. destruct m; now rewrite B.
Qed.

(** ** ALE and RHALE *)
Variables c c' : config.
Hypothesis MD : c_model c = map g.
Hypothesis MD' : c_model c' = map g'.
Hypothesis DIM : dim (c_data c) = D.
Hypothesis SQ : square (rows (c_data c)).
Hypothesis DATA : c_data c' = pick_data sel (c_data c).
Hypothesis LMIN : length (c_mins c) = D.
Hypothesis LMAX : length (c_maxs c) = D.
Hypothesis MINS : c_mins c' = pick sel (c_mins c).
Hypothesis MAXS : c_maxs c' = pick sel (c_maxs c).
Lemma kept_pick lo hi j : (j < n)%nat -> kept c' lo hi j = pick_data sel (kept c lo hi (old j)) /\ square (rows (kept c lo hi (old j))) /\ dim (kept c lo hi (old j)) = D.
Proof.
  intros H. split; [|split; [apply Forall_filter_, SQ|exact DIM]]. unfold kept, pick_data. rewrite DATA. cbn [dt dim rows]. f_equal.
  exact (pick_filter (fun v => (lo <=? v) && (v <=? hi)) _ j H).
Qed.
Lemma dims j : (j < n)%nat -> getcol (c_data c') j = getcol (c_data c) (old j).
Proof.
  intros H. unfold getcol. rewrite DATA, DIM. cbn [dim pick_data rows]. rewrite (proj2 (Nat.ltb_lt j n) H), (proj2 (Nat.ltb_lt (old j) D) (old_lt _ H)). now rewrite pick_col.
Qed.
Lemma ale_fit_pick j m : (j < n)%nat -> ale_fit_feature c' j m = ale_fit_feature c (old j) m.
Proof.
  intros H. unfold ale_fit_feature. rewrite dims, MINS, MAXS, !pick_getn, MD, MD' by assumption.
  destruct (getcol _ _); cbn [bind]; [|reflexivity]. destruct (getn (c_mins c) (old j)) as [lo|e]; cbn [bind]; [|reflexivity]. destruct (getn (c_maxs c) (old j)) as [hi|e]; cbn [bind]; [|reflexivity].
  match goal with |- bind ?A _ = bind ?A _ => destruct A as [m'|e] end; cbn [bind]; [|reflexivity].
  destruct (kept_pick lo hi j H) as (K & S1 & D1). rewrite K. rewrite (find_limits_pick _ None None) by (auto).
  destruct (find_limits _ _ _ _ _) as [[|l]|e]; cbn [bind]; try reflexivity. rewrite local_effects_pick by assumption.
  destruct (compute_local_effects _ _ _ _) as (l' & [es|e]); cbn [bind]; [|reflexivity]. cbn [rows pick_data]. now rewrite pick_col.
Qed.
Lemma rhale_fit_pick E j m : (j < n)%nat -> rhale_fit_feature c' (map (pick sel) E) j m = rhale_fit_feature c E (old j) m.
Proof.
  intros H. unfold rhale_fit_feature. rewrite dims, MINS, MAXS, !pick_getn by assumption.
  destruct (getcol _ _); cbn [bind]; [|reflexivity]. destruct (getn (c_mins c) (old j)) as [lo|e]; cbn [bind]; [|reflexivity]. destruct (getn (c_maxs c) (old j)) as [hi|e]; cbn [bind]; [|reflexivity].
  destruct (kept_pick lo hi j H) as (K & S1 & D1). rewrite K.
  assert (KE : kept_effects c' lo hi j (map (pick sel) E) = rmap (map (pick sel)) (kept_effects c lo hi (old j) E)).
  { unfold kept_effects. rewrite DATA. cbn [rows pick_data]. rewrite !map_length. destruct (Nat.eqb _ _); [|reflexivity]. unfold rmap. cbn [bind]. apply f_equal.
    clear -H. revert E. induction (rows (c_data c)) as [|r Z IH]; intros [|e E]; try reflexivity. cbn [map combine filter fst].
    replace (in_range lo hi j (pick sel r)) with (in_range lo hi (old j) r) by (unfold in_range; now rewrite pick_nth by exact H).
    destruct (in_range lo hi (old j) r); cbn [map snd]; [f_equal|]; apply IH. }
  rewrite KE. destruct (kept_effects c lo hi (old j) E) as [e|x]; unfold rmap; cbn [bind]; [|reflexivity].
  rewrite (find_limits_pick _ (Some e) (Some (map (pick sel) e))) by auto.
  destruct (find_limits _ _ _ _ _) as [[|l]|x]; cbn [bind]; try reflexivity. cbn [rows pick_data]. now rewrite !pick_col.
Qed.
(** the numerical Jacobian: its columns are picked along *)
Lemma numerical_pick eps : n <> 0%nat -> compute_jacobian_numerically (map g') (pick_data sel (c_data c)) eps = rmap (map (pick sel)) (compute_jacobian_numerically (map g) (c_data c) eps).
Proof.
  intros NZ. assert (DZ : D <> 0%nat) by (destruct sel as [|s l]; [contradiction|]; specialize (IN s (or_introl eq_refl)); lia).
  unfold compute_jacobian_numerically. rewrite DIM. cbn [dt dim rows pick_data]. destruct (dt (c_data c)).
  2:{ destruct sel; [contradiction|]. destruct D; [contradiction|]. reflexivity. }
  rewrite map_models by exact SQ. rewrite map_length.
  assert (AC : forall j, (j < n)%nat -> map g' (add_col (pick_data sel (c_data c)) j eps) = map g (add_col (c_data c) (old j) eps)).
  { intros j H. unfold add_col. cbn [rows pick_data]. rewrite !map_map. apply map_ext_in. intros r I. rewrite <- pick_updn; [|eapply Forall_forall in SQ; eauto|exact H]. apply GG. rewrite list_updn_length. eapply Forall_forall in SQ; eauto. }
  set (F := fun f : nat => d <- vzip Qcminus (map g (add_col (c_data c) f eps)) (map g (rows (c_data c)));; (if eps =? 0 then Raise NonFinite else broadcast_to (length (rows (c_data c))) (map (fun v => v / eps) d))).
  assert (FZ : forall f, F f = if eps =? 0 then Raise NonFinite else Ok (map (fun r => (g (list_updn r f (fun v => v + eps)) - g r) / eps) (rows (c_data c)))).
  { intros f. unfold F, add_col. rewrite map_map, vzip_map. cbn [bind]. destruct (eps =? 0); [reflexivity|]. unfold broadcast_to. rewrite !map_length, Nat.eqb_refl, map_map. reflexivity. }
  assert (L : mapM (fun f : nat => d <- vzip Qcminus (map g' (add_col (pick_data sel (c_data c)) f eps)) (map g (rows (c_data c)));; (if eps =? 0 then Raise NonFinite else broadcast_to (length (rows (c_data c))) (map (fun v => v / eps) d))) (seq 0 n) = mapM (fun j => F (old j)) (seq 0 n)).
  { assert (A : forall js, (forall j, In j js -> (j < n)%nat) -> mapM (fun f : nat => d <- vzip Qcminus (map g' (add_col (pick_data sel (c_data c)) f eps)) (map g (rows (c_data c)));; (if eps =? 0 then Raise NonFinite else broadcast_to (length (rows (c_data c))) (map (fun v => v / eps) d))) js = mapM (fun j => F (old j)) js).
    { induction js as [|j js IH]; intros Hj; [reflexivity|]. cbn [mapM]. rewrite AC by (apply Hj; now left). fold (F (old j)). destruct (F (old j)); cbn [bind]; [|reflexivity]. rewrite IH; [reflexivity|]. intros k I. apply Hj. now right. }
    apply A. intros j I. apply in_seq in I. lia. }
  unfold pick_data in L |- *. rewrite L. clear L.
  destruct (eps =? 0) eqn:Z.
  { destruct n as [|n0]; [contradiction|]. destruct D as [|D0]; [contradiction|]. cbn [seq mapM]. rewrite !FZ. reflexivity. }
  rewrite (mapM_ok _ (fun j => map (fun r => (g (list_updn r (old j) (fun v => v + eps)) - g r) / eps) (rows (c_data c)))) by (intros; now rewrite FZ).
  rewrite (mapM_ok F (fun j => map (fun r => (g (list_updn r j (fun v => v + eps)) - g r) / eps) (rows (c_data c)))) by (intros; now rewrite FZ).
  cbn [bind rmap]. f_equal. rewrite map_map. apply map_ext. intros i. apply (nth_ext _ _ 0 0); [now rewrite pick_length, map_length, map_length, seq_length|].
  rewrite !map_length, seq_length. intros j Hj. rewrite pick_nth by exact Hj. rewrite map_map, (nth_map_in _ _ _ 0%nat) by now rewrite seq_length. rewrite seq_nth by exact Hj.
  rewrite map_map, (nth_map_in _ _ _ 0%nat) by (rewrite seq_length; now apply old_lt). rewrite seq_nth by now apply old_lt. reflexivity.
Qed.

(** ** Histories: the calls on the second object name its columns by their new positions *)
Definition rename_call (k : call) : call :=
  match k with CallFit fs m cv => CallFit (map old fs) m cv | CallEval f xs h cv => CallEval (old f) xs h cv end.
Definition names_known (k : call) : Prop :=
  match k with CallFit fs _ _ => forall f, In f fs -> (f < n)%nat | CallEval f _ _ _ => (f < n)%nat end.
Variables E0 E0' : option Mat.
Hypothesis KIND : default_method c = default_method c' /\ forall m, method_allowed c m = method_allowed c' m.
Hypothesis FITS : forall j m, (j < n)%nat -> ALEHist.pfit c E0 (old j) m = ALEHist.pfit c' E0' j m.
Record seen (st st' : state) : Prop := {
  se_e : eff_ok c E0 st; se_e' : eff_ok c' E0' st';
  se_fe : forall j, (j < n)%nat -> st_fe st (old j) = st_fe st' j; se_args : forall j, (j < n)%nat -> st_args st (old j) = st_args st' j;
  se_fitted : forall j, (j < n)%nat -> st_fitted st (old j) = st_fitted st' j }.
Lemma upd_old {A} (a b : nat -> A) f v j : (f < n)%nat -> (j < n)%nat -> a (old j) = b j -> upd a (old f) v (old j) = upd b f v j.
Proof.
  intros Hf Hj H. unfold upd. destruct (Nat.eqb_spec j f) as [->|N]; [now rewrite Nat.eqb_refl|]. destruct (Nat.eqb_spec (old j) (old f)) as [E|]; [|exact H]. exfalso. now apply N, old_inj.
Qed.
Lemma norm_const_seen p f ce : (f < n)%nat -> compute_norm_const c p (old f) ce = compute_norm_const c' p f ce.
Proof. intros H. unfold compute_norm_const. now rewrite MINS, MAXS, !pick_getn by assumption. Qed.
Lemma seen_feature st st' f m : (f < n)%nat -> seen st st' -> snd (fit_feature c st (old f) m) = snd (fit_feature c' st' f m) /\ seen (fst (fit_feature c st (old f) m)) (fst (fit_feature c' st' f m)).
Proof.
  intros H [A1 A2 A3 A4 A5]. destruct (fit_feature_pure c E0 st (old f) m A1) as (P1 & Q1). destruct (fit_feature_pure c' E0' st' f m A2) as (P2 & Q2).
  split; [rewrite P1, P2; now apply FITS|]. pose proof (fit_feature_fields c st (old f) m) as (F1 & F2 & F3). pose proof (fit_feature_fields c' st' f m) as (G1 & G2 & G3).
  constructor; auto; intros k Hk; [rewrite F1, G1|rewrite F2, G2|rewrite F3, G3]; auto.
Qed.
Lemma seen_upd st st' f v ce : (f < n)%nat -> seen st st' -> seen (set_fe st (old f) v) (set_fe st' f v) /\ seen (set_fitted (set_fe st (old f) v) (old f) ce) (set_fitted (set_fe st' f v) f ce).
Proof.
  intros H [A1 A2 A3 A4 A5]. split; constructor; try exact A1; try exact A2; intros k Hk; cbn [st_fe st_args st_fitted set_fe set_fitted]; auto using upd_old.
Qed.
Lemma seen_one st st' f m ce : (f < n)%nat -> seen st st' -> snd (fit_one c st (old f) m ce) = snd (fit_one c' st' f m ce) /\ seen (fst (fit_one c st (old f) m ce)) (fst (fit_one c' st' f m ce)).
Proof.
  intros H A. destruct (seen_feature st st' f m H A) as (R & B). unfold fit_one.
  destruct (fit_feature c st (old f) m) as (s1 & r1), (fit_feature c' st' f m) as (s2 & r2). cbn [fst snd] in R, B. subst r2.
  destruct r1 as [p|e]; [|split; [reflexivity|exact B]].
  destruct (seen_upd s1 s2 f (p, None) ce H B) as (B1 & _). destruct ce.
  - split; [reflexivity|]. now apply seen_upd.
  - rewrite <- norm_const_seen by exact H. destruct (compute_norm_const c p (old f) ZeroStart); (split; [reflexivity|]); [now apply seen_upd|exact B1].
  - rewrite <- norm_const_seen by exact H. destruct (compute_norm_const c p (old f) ZeroIntegral); (split; [reflexivity|]); [now apply seen_upd|exact B1].
Qed.
Lemma seen_loop m ce fs : (forall f, In f fs -> (f < n)%nat) -> forall st st', seen st st' -> snd (fit_loop c st (map old fs) m ce) = snd (fit_loop c' st' fs m ce) /\ seen (fst (fit_loop c st (map old fs) m ce)) (fst (fit_loop c' st' fs m ce)).
Proof.
  induction fs as [|f fs IH]; intros HF st st' A; [split; [reflexivity|exact A]|]. cbn [fit_loop map]. destruct (seen_one st st' f m ce (HF f (or_introl eq_refl)) A) as (R & B).
  destruct (fit_one c st (old f) m ce) as (s1 & r1), (fit_one c' st' f m ce) as (s2 & r2). cbn [fst snd] in R, B. subst r2. destruct r1; [apply IH; [|exact B]; intros k I; apply HF; now right|split; [reflexivity|exact B]].
Qed.
Lemma seen_fit st st' fs m cv : (forall f, In f fs -> (f < n)%nat) -> seen st st' -> snd (fit c st (map old fs) m cv) = snd (fit c' st' fs m cv) /\ seen (fst (fit c st (map old fs) m cv)) (fst (fit c' st' fs m cv)).
Proof.
  intros HF A. unfold fit. destruct KIND as (_ & MO). rewrite <- MO. destruct (method_allowed c m); [|split; [reflexivity|exact A]].
  destruct (prep_cent cv); [now apply seen_loop|split; [reflexivity|exact A]].
Qed.
Lemma seen_eval_fitted rt st st' f xs het ce : (f < n)%nat -> seen st st' -> eval_fitted c rt st (old f) xs het ce = eval_fitted c' rt st' f xs het ce.
Proof. intros H A. unfold eval_fitted. now rewrite MINS, MAXS, !pick_getn, (se_fe _ _ A) by assumption. Qed.
Lemma seen_eval rt st st' f xs het cv : (f < n)%nat -> seen st st' ->
  snd (eval c rt st (old f) xs het cv) = snd (eval c' rt st' f xs het cv) /\ seen (fst (eval c rt st (old f) xs het cv)) (fst (eval c' rt st' f xs het cv)).
Proof.
  intros H A. unfold eval. destruct (prep_cent cv) as [ce|e]; [|split; [reflexivity|exact A]].
  assert (RE : refit c st (old f) ce = refit c' st' f ce).
  { unfold refit. rewrite DATA, DIM, (se_fitted _ _ A), (se_args _ _ A) by exact H. cbn [dim pick_data]. now rewrite (proj2 (Nat.ltb_lt f n) H), (proj2 (Nat.ltb_lt (old f) D) (old_lt _ H)). }
  rewrite <- RE.
  destruct (refit c st (old f) ce) as [[|]|e]; [|split; [now apply seen_eval_fitted|exact A]|split; [reflexivity|exact A]].
  destruct KIND as (DE & _). rewrite <- DE. assert (HF : forall k, In k [f] -> (k < n)%nat) by (intros k [->|[]]; exact H). destruct (seen_fit st st' [f] (default_method c) cv HF A) as (R & B). cbn [map] in R, B.
  destruct (fit c st [old f] (default_method c) cv) as (s1 & r1), (fit c' st' [f] (default_method c) cv) as (s2 & r2). cbn [fst snd] in R, B. subst r2.
  destruct r1; (split; [|exact B]); [now apply seen_eval_fitted|reflexivity].
Qed.
Lemma seen_run rt ks : Forall names_known ks -> forall st st', seen st st' -> seen (run c rt st (map rename_call ks)) (run c' rt st' ks).
Proof.
  unfold run. induction 1 as [|k ks Hk _ IH]; intros st st' A; [exact A|]. cbn [fold_left map]. apply IH. destruct k; simpl in *; [now apply seen_fit|now apply seen_eval].
Qed.
Lemma seen_fresh : seen (fresh E0) (fresh E0').
Proof. constructor; try reflexivity; unfold eff_ok; [destruct (c_kind c)|destruct (c_kind c')]; auto. Qed.
Lemma seen_answers rt ks j xs het cv : Forall names_known ks -> (j < n)%nat ->
  snd (eval c' rt (run c' rt (fresh E0') ks) j xs het cv) = snd (eval c rt (run c rt (fresh E0) (map rename_call ks)) (old j) xs het cv).
Proof. intros HK Hj. symmetry. apply seen_eval; [exact Hj|]. apply seen_run; [exact HK|]. apply seen_fresh. Qed.
End Sel.

(** ** PDP and DerPDP *)
Section PSel.
Variable sel : list nat.
Variable D : nat.
Hypothesis ND : NoDup sel.
Hypothesis IN : forall s, In s sel -> (s < D)%nat.
Notation n := (length sel).
Notation old := (old sel).
Notation square := (square D).
Definition same_callee (m m' : callee) : Prop :=
  (exists (g g' : list Qc -> Qc), m = CPred (map g) /\ m' = CPred (map g') /\ forall r, length r = D -> g' (pick sel r) = g r) \/
  (exists (G G' : list Qc -> list Qc), m = CJac (map G) /\ m' = CJac (map G') /\ forall r, length r = D -> length (G r) = D /\ G' (pick sel r) = pick sel (G r)).
Lemma assign_pick d v j (Z : Mat) : (j < n)%nat -> square Z -> assign_col d j v (map (pick sel) Z) = map (pick sel) (assign_col d (old j) v Z) /\ square (assign_col d (old j) v Z).
Proof.
  intros H Q. unfold assign_col. split.
  - rewrite !map_map. apply map_ext_in. intros r I. symmetry. apply (pick_set sel D ND IN); [|exact H]. eapply Forall_forall in Q; eauto.
  - apply Forall_forall. intros r I. apply in_map_iff in I as (q & <- & I). rewrite list_set_length. eapply Forall_forall in Q; eauto.
Qed.
Lemma callee_pick m m' j (Z : Mat) : same_callee m m' -> (j < n)%nat -> square Z -> call_model m' j (map (pick sel) Z) = call_model m (old j) Z.
Proof.
  intros [(g & g' & -> & -> & GG)|(G & G' & -> & -> & GG)] H Q; cbn [call_model].
  - f_equal. rewrite map_map. apply map_ext_in. intros r I. apply GG. eapply Forall_forall in Q; eauto.
  - rewrite map_map. induction Q as [|r Z L Q IH]; [reflexivity|]. cbn [map mapM]. destruct (GG r L) as (L1 & ->). rewrite (pick_getn sel D IN) by assumption.
    destruct (getn (G r) (old j)); [|reflexivity]. cbn [bind]. now rewrite IH.
Qed.
Lemma tensor_pick d xs j X : (j < n)%nat -> square (rows X) ->
  concat (assign_tensor d j xs (tensor (pick_data sel X) (length xs))) = map (pick sel) (concat (assign_tensor d (old j) xs (tensor X (length xs)))) /\
  square (concat (assign_tensor d (old j) xs (tensor X (length xs)))).
Proof.
  intros H Q. unfold tensor. cbn [rows pick_data]. induction xs as [|x xs (IH & IS)]; [split; [reflexivity|constructor]|].
  cbn [length repeat]. unfold assign_tensor in *. cbn [combine map concat fst snd]. destruct (assign_pick d x j (rows X) H Q) as (E & W).
  split; [now rewrite map_app, IH, E|]. apply Forall_app. now split.
Qed.
Lemma models_pick (g g' : list Qc -> Qc) (Z : Mat) : (forall r, length r = D -> g' (pick sel r) = g r) -> square Z -> map g' (map (pick sel) Z) = map g Z.
Proof. intros GG Q. rewrite map_map. apply map_ext_in. intros r I. apply GG. eapply Forall_forall in Q; eauto. Qed.
Lemma vectorized_pick m m' X xs j der : same_callee m m' -> (j < n)%nat -> dim X = D -> square (rows X) ->
  pdp_1d_vectorized m' (pick_data sel X) xs j der = pdp_1d_vectorized m X xs (old j) der.
Proof.
  intros SC H DX Q. unfold pdp_1d_vectorized. cbn [dim dt rows pick_data]. rewrite map_length, DX, (proj2 (Nat.ltb_lt j n) H), (proj2 (Nat.ltb_lt (old j) D) (old_lt sel D IN _ H)).
  assert (A : (y <- call_model m' j (concat (assign_tensor (dt X) j xs (tensor (pick_data sel X) (length xs)))) ;; reshape2 (length xs) (length (rows X)) y) =
              (y <- call_model m (old j) (concat (assign_tensor (dt X) (old j) xs (tensor X (length xs)))) ;; reshape2 (length xs) (length (rows X)) y)).
  { destruct (tensor_pick (dt X) xs j X H Q) as (E & W). rewrite E. now rewrite (callee_pick m m' j _ SC H W). }
  destruct SC as [(g & g' & -> & -> & GG)|(G & G' & -> & -> & GG)]; destruct der; try exact A.
  pose proof (tensor_pick (dt X) (map (fun x => x + STEP) xs) j X H Q) as (E1 & W1). pose proof (tensor_pick (dt X) (map (fun x => x - STEP) xs) j X H Q) as (E2 & W2). rewrite !map_length in *.
  fold (pick_data sel X). rewrite E1, E2, !(models_pick g g') by assumption. reflexivity.
Qed.
Lemma non_vectorized_pick m m' X xs j der : same_callee m m' -> (j < n)%nat -> dim X = D -> square (rows X) ->
  pdp_1d_non_vectorized m' (pick_data sel X) xs j der = pdp_1d_non_vectorized m X xs (old j) der.
Proof.
  intros SC H DX Q. unfold pdp_1d_non_vectorized. cbn [dim dt rows pick_data]. rewrite DX, (proj2 (Nat.ltb_lt j n) H), (proj2 (Nat.ltb_lt (old j) D) (old_lt sel D IN _ H)).
  f_equal. apply mapM_ext. intros x.
  assert (P : forall v, assign_col (dt X) j v (map (pick sel) (rows X)) = map (pick sel) (assign_col (dt X) (old j) v (rows X)) /\ square (assign_col (dt X) (old j) v (rows X))) by (intros; now apply assign_pick).
  assert (A : call_model m' j (assign_col (dt X) j x (map (pick sel) (rows X))) = call_model m (old j) (assign_col (dt X) (old j) x (rows X))).
  { destruct (P x) as (-> & W). now apply callee_pick. }
  destruct SC as [(g & g' & -> & -> & GG)|(G & G' & -> & -> & GG)]; destruct der; try exact A.
  destruct (P (x + STEP)) as (-> & W1), (P (x - STEP)) as (-> & W2). now rewrite !(models_pick g g') by assumption.
Qed.
Variables c c' : pconfig.
Definition same_pkind : Prop :=
  (exists g g', p_model c = map g /\ p_model c' = map g' /\ (forall r, length r = D -> g' (pick sel r) = g r) /\ ((p_kind c = KPDP /\ p_kind c' = KPDP) \/ (p_kind c = KDer None /\ p_kind c' = KDer None))) \/
  (exists (G G' : list Qc -> list Qc), p_kind c = KDer (Some (map G)) /\ p_kind c' = KDer (Some (map G')) /\ forall r, length r = D -> length (G r) = D /\ G' (pick sel r) = pick sel (G r)).
Hypothesis SK : same_pkind.
Hypothesis LMIN : length (p_mins c) = D.
Hypothesis LMAX : length (p_maxs c) = D.
Hypothesis MINS : p_mins c' = pick sel (p_mins c).
Hypothesis MAXS : p_maxs c' = pick sel (p_maxs c).
Lemma predict_pick vec X xs j : (j < n)%nat -> dim X = D -> square (rows X) -> predict c' vec (pick_data sel X) xs j = predict c vec X xs (old j).
Proof.
  intros H DX Q. unfold predict.
  destruct SK as [(g & g' & M & M' & GG & [(-> & ->)|(-> & ->)])|(G & G' & -> & -> & GG)]; destruct vec;
    (apply vectorized_pick || apply non_vectorized_pick); try assumption; [left; exists g, g'; now rewrite M, M'..|right; eauto|right; eauto].
Qed.
Record pseen (st st' : pstate) : Prop := {
  pe_data : ps_data st' = pick_data sel (ps_data st); pe_dim : dim (ps_data st) = D; pe_sq : square (rows (ps_data st));
  pe_norm : forall j, (j < n)%nat -> ps_norm st (old j) = ps_norm st' j; pe_args : forall j, (j < n)%nat -> ps_args st (old j) = ps_args st' j;
  pe_fitted : forall j, (j < n)%nat -> ps_fitted st (old j) = ps_fitted st' j }.
Lemma drop_pick X lo hi j : (j < n)%nat -> dim X = D -> square (rows X) ->
  drop_points_outside (pick_data sel X) lo hi j = pick_data sel (drop_points_outside X lo hi (old j)) /\ dim (drop_points_outside X lo hi (old j)) = D /\ square (rows (drop_points_outside X lo hi (old j))).
Proof.
  intros H DX Q. split; [|split; [exact DX|now apply Forall_filter_, Forall_filter_]]. unfold drop_points_outside, pick_data. cbn [dt dim rows]. f_equal.
  rewrite (pick_filter sel (fun v => lo <=? v) _ j H). exact (pick_filter sel (fun v => v <=? hi) _ j H).
Qed.
Lemma pfeature_pick X j ce pts vec : (j < n)%nat -> dim X = D -> square (rows X) ->
  snd (pfit_feature c' (pick_data sel X) j ce pts vec) = snd (pfit_feature c X (old j) ce pts vec) /\
  fst (pfit_feature c' (pick_data sel X) j ce pts vec) = pick_data sel (fst (pfit_feature c X (old j) ce pts vec)) /\
  dim (fst (pfit_feature c X (old j) ce pts vec)) = D /\ square (rows (fst (pfit_feature c X (old j) ce pts vec))).
Proof.
  intros H DX Q. unfold pfit_feature. rewrite DX. cbn [dim pick_data]. rewrite (proj2 (Nat.ltb_lt j n) H), (proj2 (Nat.ltb_lt (old j) D) (old_lt sel D IN _ H)).
  rewrite MINS, MAXS, !(pick_getn sel D IN) by assumption. destruct (getn (p_mins c) (old j)) as [lo|e]; cbn [bind]; [|auto]. destruct (getn (p_maxs c) (old j)) as [hi|e]; cbn [bind]; [|auto].
  fold (pick_data sel X). destruct (drop_pick X lo hi j H DX Q) as (E & DD & W). rewrite E. cbn [fst snd]. split; [|auto].
  rewrite !predict_pick by assumption. destruct ce; try reflexivity. destruct (pts_of pts) as [k|e]; cbn [bind]; [|reflexivity]. rewrite predict_pick by assumption. cbn [rows pick_data]. now rewrite map_length.
Qed.
Lemma pseen_one st st' j ce pts vec : (j < n)%nat -> pseen st st' -> snd (GlobalPDP.pfit_one c' st' j ce pts vec) = snd (GlobalPDP.pfit_one c st (old j) ce pts vec) /\ pseen (fst (GlobalPDP.pfit_one c st (old j) ce pts vec)) (fst (GlobalPDP.pfit_one c' st' j ce pts vec)).
Proof.
  intros H [A1 A2 A3 A4 A5 A6]. unfold GlobalPDP.pfit_one. rewrite A1. destruct (pfeature_pick (ps_data st) j ce pts vec H A2 A3) as (R & E & DD & W).
  destruct (pfit_feature c (ps_data st) (old j) ce pts vec) as (X1 & r1), (pfit_feature c' (pick_data sel (ps_data st)) j ce pts vec) as (X2 & r2). cbn [fst snd] in *. subst r2 X2.
  destruct r1; (split; [reflexivity|]); constructor; cbn [ps_data ps_norm ps_args ps_fitted fst]; auto; intros k Hk; apply (upd_old sel ND); auto.
Qed.
Lemma pseen_loop ce pts vec fs : (forall f, In f fs -> (f < n)%nat) -> forall st st', pseen st st' -> snd (pfit_loop c' st' fs ce pts vec) = snd (pfit_loop c st (map old fs) ce pts vec) /\ pseen (fst (pfit_loop c st (map old fs) ce pts vec)) (fst (pfit_loop c' st' fs ce pts vec)).
Proof.
  induction fs as [|f fs IH]; intros HF st st' A; [split; [reflexivity|exact A]|]. cbn [pfit_loop map]. destruct (pseen_one st st' f ce pts vec (HF f (or_introl eq_refl)) A) as (R & B).
  destruct (GlobalPDP.pfit_one c st (old f) ce pts vec) as (s1 & r1), (GlobalPDP.pfit_one c' st' f ce pts vec) as (s2 & r2). cbn [fst snd] in R, B. subst r2. destruct r1; [apply IH; [|exact B]; intros k I; apply HF; now right|split; [reflexivity|exact B]].
Qed.
Lemma pseen_fit st st' fs cv pts vec : (forall f, In f fs -> (f < n)%nat) -> pseen st st' -> snd (GlobalPDP.pfit c' st' fs cv pts vec) = snd (GlobalPDP.pfit c st (map old fs) cv pts vec) /\ pseen (fst (GlobalPDP.pfit c st (map old fs) cv pts vec)) (fst (GlobalPDP.pfit c' st' fs cv pts vec)).
Proof. intros HF A. unfold GlobalPDP.pfit. destruct (prep_cent cv); [now apply pseen_loop|split; [reflexivity|exact A]]. Qed.
Lemma pseen_fitted rt st st' j xs het ce al vec : (j < n)%nat -> pseen st st' -> peval_fitted c' rt st' j xs het ce al vec = peval_fitted c rt st (old j) xs het ce al vec.
Proof.
  intros H [A1 A2 A3 A4 A5 A6]. unfold peval_fitted. rewrite MINS, MAXS, !(pick_getn sel D IN), A1, predict_pick, (A4 j H) by assumption. cbn [rows pick_data]. now rewrite map_length.
Qed.
Lemma pseen_eval rt st st' j xs het cv al vec : (j < n)%nat -> pseen st st' ->
  snd (peval c' rt st' j xs het cv al vec) = snd (peval c rt st (old j) xs het cv al vec) /\ pseen (fst (peval c rt st (old j) xs het cv al vec)) (fst (peval c' rt st' j xs het cv al vec)).
Proof.
  intros H A. unfold peval. destruct (prep_cent cv) as [ce|e]; [|split; [reflexivity|exact A]].
  assert (RE : prefit st' j ce = prefit st (old j) ce).
  { unfold prefit. destruct A as [A1 A2 A3 A4 A5 A6]. rewrite A1, A2, (A6 j H), (A5 j H). cbn [dim pick_data]. now rewrite (proj2 (Nat.ltb_lt j n) H), (proj2 (Nat.ltb_lt (old j) D) (old_lt sel D IN _ H)). }
  rewrite RE. destruct (prefit st (old j) ce) as [[|]|e]; [|split; [now apply pseen_fitted|exact A]|split; [reflexivity|exact A]].
  assert (HF : forall k, In k [j] -> (k < n)%nat) by (intros k [->|[]]; exact H). destruct (pseen_fit st st' [j] cv default_pts vec HF A) as (R & B). cbn [map] in R, B.
  destruct (GlobalPDP.pfit c st [old j] cv default_pts vec) as (s1 & r1), (GlobalPDP.pfit c' st' [j] cv default_pts vec) as (s2 & r2). cbn [fst snd] in R, B. subst r2.
  destruct r1; (split; [|exact B]); [now apply pseen_fitted|reflexivity].
Qed.
Definition rename_pcall (k : pcall) : pcall :=
  match k with PFit fs cv pts vec => PFit (map old fs) cv pts vec | PEval f xs h cv al vec => PEval (old f) xs h cv al vec end.
Definition pnames_known (k : pcall) : Prop :=
  match k with PFit fs _ _ _ => forall f, In f fs -> (f < n)%nat | PEval f _ _ _ _ _ => (f < n)%nat end.
Lemma pseen_run rt ks : Forall pnames_known ks -> forall st st', pseen st st' -> pseen (prun c rt st (map rename_pcall ks)) (prun c' rt st' ks).
Proof.
  unfold prun. induction 1 as [|k ks Hk _ IH]; intros st st' A; [exact A|]. cbn [fold_left map]. apply IH. destruct k; simpl in *; [now apply pseen_fit|now apply pseen_eval].
Qed.
Lemma pseen_answers rt X ks j xs het cv al vec : dim X = D -> square (rows X) -> Forall pnames_known ks -> (j < n)%nat ->
  snd (peval c' rt (prun c' rt (pfresh (pick_data sel X)) ks) j xs het cv al vec) = snd (peval c rt (prun c rt (pfresh X) (map rename_pcall ks)) (old j) xs het cv al vec).
Proof. intros DX Q HK Hj. apply pseen_eval; [exact Hj|]. apply pseen_run; [exact HK|]. constructor; auto. Qed.
End PSel.

(** ** Construction: the default axis limits of the reduced table are the picked limits *)
Lemma limits_pick sel D (X : data) : NoDup sel -> (forall s, In s sel -> (s < D)%nat) -> sel <> [] -> dim X = D ->
  axis_limits_from_data (pick_data sel X) = rmap (fun p => (pick sel (fst p), pick sel (snd p))) (axis_limits_from_data X) /\
  forall mins maxs, axis_limits_from_data X = Ok (mins, maxs) -> length mins = D /\ length maxs = D.
Proof.
  intros ND IN NE DX. unfold axis_limits_from_data. rewrite DX. cbn [dim rows pick_data].
  assert (L : forall (h : list Qc -> res Qc) a, mapM (fun d => h (col (rows X) d)) (seq 0 D) = Ok a -> length a = D) by (intros h a H; apply mapM_length in H; now rewrite seq_length in H).
  split.
  2:{ intros mins maxs H. apply bind_ok in H as (a & H1 & H). apply bind_ok in H as (b & H2 & H). injection H as <- <-. eauto. }
  assert (P : forall h : list Qc -> res Qc, mapM (fun d => h (col (map (pick sel) (rows X)) d)) (seq 0 (length sel)) = mapM (fun s => h (col (rows X) s)) sel).
  { intros h. assert (A : forall js, (forall j, In j js -> (j < length sel)%nat) -> mapM (fun d => h (col (map (pick sel) (rows X)) d)) js = mapM (fun s => h (col (rows X) s)) (map (old sel) js)).
    { induction js as [|j js IH]; intros Hj; [reflexivity|]. cbn [map mapM]. rewrite pick_col by (apply Hj; now left). rewrite IH; [reflexivity|]. intros k I. apply Hj. now right. }
    rewrite A by (intros j I; apply in_seq in I; lia). f_equal. unfold old. clear. induction sel as [|s l IH]; [reflexivity|]. cbn [length seq map]. f_equal. rewrite <- seq_shift, map_map. exact IH. }
  rewrite !P. destruct (rows X) as [|r Z] eqn:RX.
  - destruct sel as [|s l]; [contradiction|]. destruct D as [|D0]; [specialize (IN s (or_introl eq_refl)); lia|]. reflexivity.
  - assert (M : forall h : list Qc -> res Qc, (forall q, exists v, h (col (r :: Z) q) = Ok v) -> forall ks, exists a, mapM (fun d => h (col (r :: Z) d)) ks = Ok a).
    { intros h Hh. induction ks as [|k ks (a & IH)]; [now exists []|]. cbn [mapM]. destruct (Hh k) as (v & ->). cbn [bind]. rewrite IH. cbn [bind]. eauto. }
    assert (K : forall h : list Qc -> res Qc, (forall q, exists v, h (col (r :: Z) q) = Ok v) -> exists a, mapM (fun d => h (col (r :: Z) d)) (seq 0 D) = Ok a /\ mapM (fun s => h (col (r :: Z) s)) sel = Ok (pick sel a)).
    { intros h Hh. destruct (M h Hh (seq 0 D)) as (a & E). exists a. split; [exact E|]. unfold pick. apply mapM_ok. intros s I. apply IN in I.
      pose proof (mapM_nth_ok (fun d => h (col (r :: Z) d)) (seq 0 D) a s 0 E) as H. rewrite seq_length, seq_nth in H by exact I. now apply H. }
    destruct (K np_min) as (a & -> & ->); [intros q; simpl; eauto|]. destruct (K np_max) as (b & -> & ->); [intros q; simpl; eauto|]. reflexivity.
Qed.
