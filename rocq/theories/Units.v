(** Units: two objects on the same instances, the columns of the second expressed in other units, x |-> a x + b with a > 0 (proofs for C91). *)
From Verif Require Import Base Numpy Spec NumpyFacts Utils UtilsProofs Helpers HelpersProofs Integrate Binning GlobalALE GlobalPDP ALEState ALEHist PDPProofs RegOrder OrderProofs Columns.
Open Scope Qc_scope.
Open Scope list_scope.

Definition unit (a b x : Qc) : Qc := a * x + b.
(** the row with column i in its new unit *)
Definition rescale (a b : nat -> Qc) (r : list Qc) : list Qc := map (fun i => unit (a i) (b i) (r@i)) (seq 0 (length r)).
Definition rescale_data (a b : nat -> Qc) (X : data) : data := mkData (dt X) (dim X) (map (rescale a b) (rows X)).

(** ** one axis *)
Section Axis.
Variables a b : Qc.
Hypothesis PA : 0 < a.
Notation u := (unit a b).
Lemma unit_le x y : u x <= u y <-> x <= y.
Proof. unfold unit. split; intros H; [|pose proof (Qcmul_le_compat_l x y a ltac:(qlra) H); qlra]. destruct (Qcleb_spec x y) as [|L]; [assumption|]. exfalso. pose proof (Qcmul_lt_compat_l y x a PA L). qlra. Qed.
Lemma unit_leb x y : (u x <=? u y) = (x <=? y).
Proof. destruct (x <=? y) eqn:E; [apply Qcleb_le in E; now apply Qcleb_le, unit_le|]. apply Qcleb_gt in E. apply Qcleb_gt. apply Qcnot_le_lt. rewrite unit_le. now apply Qclt_not_le. Qed.
Lemma unit_ltb x y : (u x <? u y) = (x <? y).
Proof. destruct (x <? y) eqn:E; [apply Qcltb_lt in E; apply Qcltb_lt, Qcnot_le_lt; rewrite unit_le; now apply Qclt_not_le|]. apply Qcltb_ge in E. apply Qcltb_ge. now apply unit_le. Qed.
Lemma unit_eqb x y : (u x =? u y) = (x =? y).
Proof.
  destruct (Qceqb_spec x y) as [->|N]; [apply Qceqb_eq; reflexivity|]. apply Qceqb_neq. intros E. apply N. apply Qcle_antisym; apply unit_le; rewrite E; apply Qcle_refl.
Qed.
Lemma min_map l : np_min (map u l) = rmap u (np_min l).
Proof.
  destruct l as [|x l]; [reflexivity|]. cbn [map np_min rmap bind]. f_equal. revert x. induction l as [|y l IH]; intros x; [reflexivity|]. cbn [map fold_left]. rewrite <- IH. f_equal.
  unfold Qcmin. rewrite unit_leb. now destruct (x <=? y).
Qed.
Lemma max_map l : np_max (map u l) = rmap u (np_max l).
Proof.
  destruct l as [|x l]; [reflexivity|]. cbn [map np_max rmap bind]. f_equal. revert x. induction l as [|y l IH]; intros x; [reflexivity|]. cbn [map fold_left]. rewrite <- IH. f_equal.
  unfold Qcmax. rewrite unit_leb. now destruct (x <=? y).
Qed.
Lemma linspace_map lo hi n : linspace (u lo) (u hi) n = map u (linspace lo hi n).
Proof.
  destruct n as [|[|n]]; [reflexivity..|]. unfold linspace. rewrite map_map. apply map_ext_in. intros i I. destruct (Nat.eqb _ _); [reflexivity|]. unfold unit.
  replace (a * hi + b - (a * lo + b)) with (a * (hi - lo)) by ring. unfold Qcdiv. ring.
Qed.
End Axis.

Section Rows.
Variables a b : nat -> Qc.
Notation U := (rescale a b).
Notation u := (fun i => unit (a i) (b i)).
Lemma rescale_length r : length (U r) = length r. Proof. unfold rescale. now rewrite map_length, seq_length. Qed.
Lemma rescale_nth r i : (i < length r)%nat -> (U r)@i = unit (a i) (b i) (r@i).
Proof. intros H. unfold rescale. rewrite (nth_map_in _ _ _ 0%nat) by now rewrite seq_length. now rewrite seq_nth by exact H. Qed.
Lemma rescale_set r f v : (f < length r)%nat -> U (list_set r f v) = list_set (U r) f (unit (a f) (b f) v).
Proof.
  intros H. apply (nth_ext _ _ 0 0); [now rewrite list_set_length, !rescale_length, list_set_length|]. rewrite rescale_length, list_set_length. intros i Hi.
  rewrite rescale_nth by now rewrite list_set_length. rewrite !list_set_nth by (rewrite ?rescale_length; exact H). destruct (Nat.eqb_spec i f) as [->|]; [reflexivity|]. now rewrite rescale_nth.
Qed.
Lemma rescale_getn l i : getn (U l) i = rmap (unit (a i) (b i)) (getn l i).
Proof.
  destruct (Nat.lt_ge_cases i (length l)) as [H|H]; [|now rewrite !getn_raise by now rewrite ?rescale_length].
  rewrite (getn_ok _ _ 0) by now rewrite rescale_length. rewrite (getn_ok _ _ 0) by exact H. cbn [rmap bind]. now rewrite rescale_nth.
Qed.
Variable D : nat.
Notation square := (square D).
Lemma rescale_square (Z : Mat) : square Z -> square (map U Z).
Proof. intros Q. apply Forall_map. eapply Forall_impl; [|exact Q]. intros r L. now rewrite rescale_length. Qed.
Lemma rescale_col (Z : Mat) f : square Z -> (f < D)%nat -> col (map U Z) f = map (unit (a f) (b f)) (col Z f).
Proof. intros Q H. unfold col. rewrite !map_map. apply map_ext_in. intros r I. apply rescale_nth. eapply Forall_forall in Q; [|exact I]. lia. Qed.
Lemma rescale_filter (p p' : Qc -> bool) (Z : Mat) f : square Z -> (f < D)%nat -> (forall x, p' (unit (a f) (b f) x) = p x) ->
  filter (fun r => p' (r@f)) (map U Z) = map U (filter (fun r => p (r@f)) Z).
Proof.
  intros Q H P. rewrite filter_map_comm. f_equal. apply filter_ext_in. intros r I. eapply Forall_forall in Q; [|exact I]. rewrite rescale_nth by lia. apply P.
Qed.
Hypothesis PA : forall i, 0 < a i.
Lemma limits_rescale (X : data) : square (rows X) -> dim X = D ->
  axis_limits_from_data (rescale_data a b X) = rmap (fun p => (U (fst p), U (snd p))) (axis_limits_from_data X) /\
  forall mins maxs, axis_limits_from_data X = Ok (mins, maxs) -> length mins = D /\ length maxs = D.
Proof.
  intros Q DX. unfold axis_limits_from_data. rewrite DX. cbn [dim rows rescale_data]. rewrite DX.
  assert (L : forall (h : list Qc -> res Qc) v, mapM (fun d => h (col (rows X) d)) (seq 0 D) = Ok v -> length v = D) by (intros h v H; apply mapM_length in H; now rewrite seq_length in H).
  split. 2:{ intros mins maxs H. apply bind_ok in H as (v & H1 & H). apply bind_ok in H as (w & H2 & H). injection H as <- <-. eauto. }
  assert (P : forall h : list Qc -> res Qc, (forall i l, h (map (unit (a i) (b i)) l) = rmap (unit (a i) (b i)) (h l)) ->
    mapM (fun d => h (col (map U (rows X)) d)) (seq 0 D) = rmap U (mapM (fun d => h (col (rows X) d)) (seq 0 D))).
  { intros h Hh. assert (A : forall n k, (k + n <= D)%nat -> mapM (fun d => h (col (map U (rows X)) d)) (seq k n) = rmap (fun v => map (fun i => unit (a (k + i)%nat) (b (k + i)%nat) (v@i)) (seq 0 n)) (mapM (fun d => h (col (rows X) d)) (seq k n))).
    { induction n as [|n IH]; intros k Hk; [reflexivity|]. cbn [seq mapM]. rewrite rescale_col by (auto; lia). rewrite Hh. destruct (h (col (rows X) k)) as [v|e]; [|reflexivity]. cbn [rmap bind].
      rewrite IH by lia. destruct (mapM (fun d => h (col (rows X) d)) (seq (S k) n)) as [w|e]; [|reflexivity]. cbn [rmap bind map]. rewrite Nat.add_0_r. cbn [nth]. do 2 f_equal.
      rewrite <- seq_shift, map_map. apply map_ext. intros i. cbn [nth]. now rewrite Nat.add_succ_r. }
    rewrite (A D 0%nat) by lia. destruct (mapM (fun d => h (col (rows X) d)) (seq 0 D)) as [w|e] eqn:E; [|reflexivity]. cbn [rmap bind]. unfold rescale. now rewrite (L _ _ E). }
  rewrite !P by (intros; (apply min_map || apply max_map); apply PA).
  destruct (mapM _ (seq 0 D)); [|reflexivity]. unfold rmap. cbn [bind]. destruct (mapM _ (seq 0 D)); reflexivity.
Qed.
End Rows.

(** ** PDP and DerPDP *)
Section PUnits.
Variables a b : nat -> Qc.
Hypothesis PA : forall i, 0 < a i.
Variable D : nat.
Notation U := (rescale a b).
Notation square := (square D).
Definition unit_callee (m m' : callee) : Prop :=
  (exists (g g' : list Qc -> Qc), m = CPred (map g) /\ m' = CPred (map g') /\ forall r, length r = D -> g' (U r) = g r) \/
  (exists (G G' : list Qc -> list Qc), m = CJac (map G) /\ m' = CJac (map G') /\ forall r, length r = D -> G' (U r) = G r).
Lemma assign_rescale v f (Z : Mat) : (f < D)%nat -> square Z -> assign_col Float64 f (unit (a f) (b f) v) (map U Z) = map U (assign_col Float64 f v Z) /\ square (assign_col Float64 f v Z).
Proof.
  intros H Q. unfold assign_col. cbn [store]. split.
  - rewrite !map_map. apply map_ext_in. intros r I. symmetry. apply rescale_set. eapply Forall_forall in Q; [|exact I]. lia.
  - apply Forall_map. eapply Forall_impl; [|exact Q]. intros r L. now rewrite list_set_length.
Qed.
Lemma models_rescale (g g' : list Qc -> Qc) (Z : Mat) : (forall r, length r = D -> g' (U r) = g r) -> square Z -> map g' (map U Z) = map g Z.
Proof. intros GG Q. rewrite map_map. apply map_ext_in. intros r I. apply GG. eapply Forall_forall in Q; eauto. Qed.
Lemma callee_rescale m m' f (Z : Mat) : unit_callee m m' -> square Z -> call_model m' f (map U Z) = call_model m f Z.
Proof.
  intros [(g & g' & -> & -> & GG)|(G & G' & -> & -> & GG)] Q; cbn [call_model].
  - f_equal. now apply models_rescale.
  - f_equal. rewrite map_map. apply map_ext_in. intros r I. apply GG. eapply Forall_forall in Q; eauto.
Qed.
Lemma tensor_rescale xs f X : (f < D)%nat -> square (rows X) ->
  concat (assign_tensor Float64 f (map (unit (a f) (b f)) xs) (tensor (rescale_data a b X) (length xs))) = map U (concat (assign_tensor Float64 f xs (tensor X (length xs)))) /\
  square (concat (assign_tensor Float64 f xs (tensor X (length xs)))).
Proof.
  intros H Q. unfold tensor. cbn [rows rescale_data]. induction xs as [|x xs (IH & IS)]; [split; [reflexivity|constructor]|].
  cbn [length repeat map]. unfold assign_tensor in *. cbn [combine map concat fst snd]. destruct (assign_rescale x f (rows X) H Q) as (E & W).
  split; [now rewrite map_app, IH, E|]. apply Forall_app. now split.
Qed.
(** the central differences need the same step on both axes: a f = 1 *)
Lemma vectorized_rescale m m' X xs f der : unit_callee m m' -> (f < D)%nat -> dim X = D -> dt X = Float64 -> square (rows X) -> der = false \/ a f = 1 ->
  pdp_1d_vectorized m' (rescale_data a b X) (map (unit (a f) (b f)) xs) f der = pdp_1d_vectorized m X xs f der.
Proof.
  intros SC H DX DT Q A1. unfold pdp_1d_vectorized. cbn [dim dt rows rescale_data]. rewrite !map_length, DX, DT.
  assert (A : (y <- call_model m' f (concat (assign_tensor Float64 f (map (unit (a f) (b f)) xs) (tensor (rescale_data a b X) (length xs)))) ;; reshape2 (length xs) (length (rows X)) y) =
              (y <- call_model m f (concat (assign_tensor Float64 f xs (tensor X (length xs)))) ;; reshape2 (length xs) (length (rows X)) y)).
  { destruct (tensor_rescale xs f X H Q) as (E & W). rewrite E. now rewrite (callee_rescale m m' f _ SC W). }
  destruct (Nat.ltb f D); [|reflexivity].
  destruct SC as [(g & g' & -> & -> & GG)|(G & G' & -> & -> & GG)]; destruct der; try exact A.
  destruct A1 as [A1|A1]; [discriminate|].
  pose proof (tensor_rescale (map (fun x => x + STEP) xs) f X H Q) as (E1 & W1). pose proof (tensor_rescale (map (fun x => x - STEP) xs) f X H Q) as (E2 & W2). rewrite !map_length in *.
  assert (P : forall s, map (fun x => x + s) (map (unit (a f) (b f)) xs) = map (unit (a f) (b f)) (map (fun x => x + s) xs)).
  { intros s. rewrite !map_map. apply map_ext. intros x. unfold unit. rewrite A1. ring. }
  assert (P' : map (fun x => x - STEP) (map (unit (a f) (b f)) xs) = map (unit (a f) (b f)) (map (fun x => x - STEP) xs)).
  { rewrite !map_map. apply map_ext. intros x. unfold unit. rewrite A1. ring. }
  replace (mkData Float64 D (map U (rows X))) with (rescale_data a b X) by (unfold rescale_data; now rewrite DX, DT).
  rewrite P, P', E1, E2, !(models_rescale g g') by assumption. reflexivity.
Qed.
Lemma non_vectorized_rescale m m' X xs f der : unit_callee m m' -> (f < D)%nat -> dim X = D -> dt X = Float64 -> square (rows X) -> der = false \/ a f = 1 ->
  pdp_1d_non_vectorized m' (rescale_data a b X) (map (unit (a f) (b f)) xs) f der = pdp_1d_non_vectorized m X xs f der.
Proof.
  intros SC H DX DT Q A1. unfold pdp_1d_non_vectorized. cbn [dim dt rows rescale_data]. rewrite DX, DT.
  f_equal. induction xs as [|x xs IH]; [reflexivity|]. cbn [map mapM]. rewrite IH. clear IH. set (t := mapM _ xs). clearbody t.
  assert (P : forall v, assign_col Float64 f (unit (a f) (b f) v) (map U (rows X)) = map U (assign_col Float64 f v (rows X)) /\ square (assign_col Float64 f v (rows X))) by (intros; now apply assign_rescale).
  assert (A : call_model m' f (assign_col Float64 f (unit (a f) (b f) x) (map U (rows X))) = call_model m f (assign_col Float64 f x (rows X))).
  { destruct (P x) as (-> & W). now apply callee_rescale. }
  destruct (Nat.ltb f D); [|reflexivity].
  destruct SC as [(g & g' & -> & -> & GG)|(G & G' & -> & -> & GG)]; destruct der; try (now rewrite A).
  destruct A1 as [A1|A1]; [discriminate|].
  replace (unit (a f) (b f) x + STEP) with (unit (a f) (b f) (x + STEP)) by (unfold unit; rewrite A1; ring).
  replace (unit (a f) (b f) x - STEP) with (unit (a f) (b f) (x - STEP)) by (unfold unit; rewrite A1; ring).
  destruct (P (x + STEP)) as (-> & W1), (P (x - STEP)) as (-> & W2). now rewrite !(models_rescale g g') by assumption.
Qed.
Variables c c' : pconfig.
Definition unit_pkind : Prop :=
  (exists g g', p_model c = map g /\ p_model c' = map g' /\ (forall r, length r = D -> g' (U r) = g r) /\ ((p_kind c = KPDP /\ p_kind c' = KPDP) \/ (p_kind c = KDer None /\ p_kind c' = KDer None /\ forall i, a i = 1))) \/
  (exists (G G' : list Qc -> list Qc), p_kind c = KDer (Some (map G)) /\ p_kind c' = KDer (Some (map G')) /\ forall r, length r = D -> G' (U r) = G r).
Hypothesis SK : unit_pkind.
Hypothesis MINS : p_mins c' = U (p_mins c).
Hypothesis MAXS : p_maxs c' = U (p_maxs c).
Definition fine (X : data) : Prop := dim X = D /\ dt X = Float64 /\ square (rows X).
Lemma predict_rescale vec X xs f : (f < D)%nat -> fine X -> predict c' vec (rescale_data a b X) (map (unit (a f) (b f)) xs) f = predict c vec X xs f.
Proof.
  intros H (DX & DT & Q). unfold predict.
  destruct SK as [(g & g' & M & M' & GG & [(-> & ->)|(-> & -> & A1)])|(G & G' & -> & -> & GG)]; destruct vec;
    (apply vectorized_rescale || apply non_vectorized_rescale); auto; try (left; exists g, g'; now rewrite M, M'); right; eauto.
Qed.
Record pconv (st st' : pstate) : Prop := {
  pv_data : ps_data st' = rescale_data a b (ps_data st); pv_fine : fine (ps_data st);
  pv_norm : ps_norm st' = ps_norm st; pv_args : ps_args st' = ps_args st; pv_fitted : ps_fitted st' = ps_fitted st }.
Lemma drop_rescale X lo hi f : (f < D)%nat -> fine X ->
  drop_points_outside (rescale_data a b X) (unit (a f) (b f) lo) (unit (a f) (b f) hi) f = rescale_data a b (drop_points_outside X lo hi f) /\ fine (drop_points_outside X lo hi f).
Proof.
  intros H (DX & DT & Q). split; [|split; [exact DX|split; [exact DT|now apply Forall_filter_, Forall_filter_]]]. unfold drop_points_outside, rescale_data. cbn [dt dim rows]. f_equal.
  rewrite (rescale_filter a b D (fun v => lo <=? v) (fun v => unit (a f) (b f) lo <=? v)) by (auto using unit_leb).
  apply (rescale_filter a b D (fun v => v <=? hi) (fun v => v <=? unit (a f) (b f) hi)); auto using unit_leb. now apply Forall_filter_.
Qed.
Lemma pfeature_rescale X f ce pts vec : (f < D)%nat -> fine X ->
  snd (pfit_feature c' (rescale_data a b X) f ce pts vec) = snd (pfit_feature c X f ce pts vec) /\
  fst (pfit_feature c' (rescale_data a b X) f ce pts vec) = rescale_data a b (fst (pfit_feature c X f ce pts vec)) /\
  fine (fst (pfit_feature c X f ce pts vec)).
Proof.
  intros H F. unfold pfit_feature. cbn [dim rescale_data]. destruct (Nat.ltb f (dim X)); [|auto].
  rewrite MINS, MAXS, !rescale_getn. destruct (getn (p_mins c) f) as [lo|e]; cbn [rmap bind]; [|auto]. destruct (getn (p_maxs c) f) as [hi|e]; cbn [rmap bind]; [|auto].
  fold (rescale_data a b X). destruct (drop_rescale X lo hi f H F) as (E & W). rewrite E. cbn [fst snd]. split; [|auto].
  destruct ce; [reflexivity| |].
  - change [unit (a f) (b f) lo] with (map (unit (a f) (b f)) [lo]). now rewrite predict_rescale.
  - destruct (pts_of pts) as [k|e]; cbn [bind]; [|reflexivity]. rewrite linspace_map, predict_rescale by auto. cbn [rows rescale_data]. now rewrite map_length.
Qed.
Lemma pconv_one st st' f ce pts vec : (f < D)%nat -> pconv st st' -> snd (GlobalPDP.pfit_one c' st' f ce pts vec) = snd (GlobalPDP.pfit_one c st f ce pts vec) /\ pconv (fst (GlobalPDP.pfit_one c st f ce pts vec)) (fst (GlobalPDP.pfit_one c' st' f ce pts vec)).
Proof.
  intros H [A1 A2 A4 A5 A6]. unfold GlobalPDP.pfit_one. rewrite A1. destruct (pfeature_rescale (ps_data st) f ce pts vec H A2) as (R & E & W).
  destruct (pfit_feature c (ps_data st) f ce pts vec) as (X1 & r1), (pfit_feature c' (rescale_data a b (ps_data st)) f ce pts vec) as (X2 & r2). cbn [fst snd] in *. subst r2 X2.
  destruct r1; (split; [reflexivity|]); constructor; cbn [ps_data ps_norm ps_args ps_fitted fst]; auto; congruence.
Qed.
Lemma pconv_loop ce pts vec fs : (forall f, In f fs -> (f < D)%nat) -> forall st st', pconv st st' -> snd (pfit_loop c' st' fs ce pts vec) = snd (pfit_loop c st fs ce pts vec) /\ pconv (fst (pfit_loop c st fs ce pts vec)) (fst (pfit_loop c' st' fs ce pts vec)).
Proof.
  induction fs as [|f fs IH]; intros HF st st' A; [split; [reflexivity|exact A]|]. cbn [pfit_loop]. destruct (pconv_one st st' f ce pts vec (HF f (or_introl eq_refl)) A) as (R & B).
  destruct (GlobalPDP.pfit_one c st f ce pts vec) as (s1 & r1), (GlobalPDP.pfit_one c' st' f ce pts vec) as (s2 & r2). cbn [fst snd] in R, B. subst r2. destruct r1; [apply IH; [|exact B]; intros k I; apply HF; now right|split; [reflexivity|exact B]].
Qed.
Lemma pconv_fit st st' fs cv pts vec : (forall f, In f fs -> (f < D)%nat) -> pconv st st' -> snd (GlobalPDP.pfit c' st' fs cv pts vec) = snd (GlobalPDP.pfit c st fs cv pts vec) /\ pconv (fst (GlobalPDP.pfit c st fs cv pts vec)) (fst (GlobalPDP.pfit c' st' fs cv pts vec)).
Proof. intros HF A. unfold GlobalPDP.pfit. destruct (prep_cent cv); [now apply pconv_loop|split; [reflexivity|exact A]]. Qed.
Lemma pconv_fitted rt st st' f xs het ce al vec : (f < D)%nat -> pconv st st' -> peval_fitted c' rt st' f (map (unit (a f) (b f)) xs) het ce al vec = peval_fitted c rt st f xs het ce al vec.
Proof.
  intros H [A1 A2 A4 A5 A6]. unfold peval_fitted. rewrite MINS, MAXS, !rescale_getn, A1, predict_rescale, A4 by assumption. cbn [rows rescale_data]. rewrite map_length.
  destruct (getn (p_mins c) f) as [lo|e]; cbn [rmap bind]; [|reflexivity]. destruct (getn (p_maxs c) f) as [hi|e]; cbn [rmap bind]; [|reflexivity]. now rewrite unit_ltb.
Qed.
Lemma pconv_eval rt st st' f xs het cv al vec : (f < D)%nat -> pconv st st' ->
  snd (peval c' rt st' f (map (unit (a f) (b f)) xs) het cv al vec) = snd (peval c rt st f xs het cv al vec) /\ pconv (fst (peval c rt st f xs het cv al vec)) (fst (peval c' rt st' f (map (unit (a f) (b f)) xs) het cv al vec)).
Proof.
  intros H A. unfold peval. destruct (prep_cent cv) as [ce|e]; [|split; [reflexivity|exact A]].
  assert (RE : prefit st' f ce = prefit st f ce).
  { unfold prefit. destruct A as [A1 A2 A4 A5 A6]. now rewrite A1, A5, A6. }
  rewrite RE. destruct (prefit st f ce) as [[|]|e]; [|split; [now apply pconv_fitted|exact A]|split; [reflexivity|exact A]].
  assert (HF : forall k, In k [f] -> (k < D)%nat) by (intros k [->|[]]; exact H). destruct (pconv_fit st st' [f] cv default_pts vec HF A) as (R & B).
  destruct (GlobalPDP.pfit c st [f] cv default_pts vec) as (s1 & r1), (GlobalPDP.pfit c' st' [f] cv default_pts vec) as (s2 & r2). cbn [fst snd] in R, B. subst r2.
  destruct r1; (split; [|exact B]); [now apply pconv_fitted|reflexivity].
Qed.
Definition convert_pcall (k : pcall) : pcall :=
  match k with PFit fs cv pts vec => PFit fs cv pts vec | PEval f xs h cv al vec => PEval f (map (unit (a f) (b f)) xs) h cv al vec end.
Definition pfeatures_in (k : pcall) : Prop :=
  match k with PFit fs _ _ _ => forall f, In f fs -> (f < D)%nat | PEval f _ _ _ _ _ => (f < D)%nat end.
Lemma pconv_run rt ks : Forall pfeatures_in ks -> forall st st', pconv st st' -> pconv (prun c rt st ks) (prun c' rt st' (map convert_pcall ks)).
Proof.
  unfold prun. induction 1 as [|k ks Hk _ IH]; intros st st' A; [exact A|]. cbn [fold_left map]. apply IH. destruct k; simpl in *; [now apply pconv_fit|now apply pconv_eval].
Qed.
Lemma pconv_answers rt X ks f xs het cv al vec : fine X -> Forall pfeatures_in ks -> (f < D)%nat ->
  snd (peval c' rt (prun c' rt (pfresh (rescale_data a b X)) (map convert_pcall ks)) f (map (unit (a f) (b f)) xs) het cv al vec) = snd (peval c rt (prun c rt (pfresh X) ks) f xs het cv al vec).
Proof. intros F HK Hf. apply pconv_eval; [exact Hf|]. apply pconv_run; [exact HK|]. constructor; auto. Qed.
End PUnits.
