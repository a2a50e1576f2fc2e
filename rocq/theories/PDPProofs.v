(** PDPProofs: the ICE matrix, the summary and the histories of PDP objects. *)
From Verif Require Import Base Numpy Spec NumpyFacts Utils LocalProofs Helpers HelpersProofs GlobalALE ALEState GlobalPDP.
Open Scope Qc_scope.
Open Scope list_scope.

(** ** reshape *)
Lemma chunks_concat {A} (t : list (list A)) n : (forall r, In r t -> length r = n) -> chunks (length t) n (concat t) = t.
Proof.
  induction t as [|r t IH]; intros H; simpl; [reflexivity|].
  assert (L : length r = n) by (apply H; now left). subst n.
  rewrite firstn_app, firstn_all, Nat.sub_diag. simpl. rewrite app_nil_r. f_equal.
  rewrite skipn_app, skipn_all, Nat.sub_diag. simpl. apply IH. intros r' Hr. apply H. now right.
Qed.
Lemma concat_length_uniform {A} (t : list (list A)) n : (forall r, In r t -> length r = n) -> length (concat t) = (length t * n)%nat.
Proof.
  induction t as [|r t IH]; intros H; simpl; [reflexivity|]. rewrite app_length, (H r) by now left. rewrite IH; [lia|]. intros; apply H; now right.
Qed.
Lemma reshape2_concat {A} (t : list (list A)) n : (forall r, In r t -> length r = n) -> reshape2 (length t) n (concat t) = Ok t.
Proof. intros H. unfold reshape2. rewrite (concat_length_uniform t n H), Nat.eqb_refl. now rewrite chunks_concat. Qed.

Lemma combine_repeat_l {A B C} (h : A * B -> C) a (l : list B) : map h (combine (repeat a (length l)) l) = map (fun b => h (a, b)) l.
Proof. induction l as [|b l IH]; simpl; [reflexivity|]. now rewrite IH. Qed.

Lemma assign_tensor_eq d f xs X : assign_tensor d f xs (tensor X (length xs)) = map (fun x => assign_col d f x (rows X)) xs.
Proof. unfold assign_tensor, tensor. rewrite combine_repeat_l. reflexivity. Qed.

Lemma assign_col_wf X f v : wf_data X -> forall r, In r (assign_col (dt X) f v (rows X)) -> length r = dim X.
Proof. intros W r Hr. unfold assign_col in Hr. apply in_map_iff in Hr as (r0 & <- & H0). rewrite list_set_length. now apply W. Qed.

(** A callee that computes every row on its own. *)
Definition row_callee (m : callee) (f D : nat) (h : list Qc -> Qc) : Prop :=
  forall Z, (forall r, In r Z -> length r = D) -> call_model m f Z = Ok (map h Z).

Definition ice_matrix (v : list Qc -> Qc -> Qc) (Z : Mat) (xs : list Qc) : Mat := map (fun x => map (fun r => v r x) Z) xs.

Lemma stack_rows_ok (v : list Qc -> Qc -> Qc) Z xs : xs <> [] -> stack_rows (ice_matrix v Z xs) = Ok (ice_matrix v Z xs).
Proof.
  destruct xs as [|x xs]; [congruence|]. intros _. unfold ice_matrix. simpl.
  rewrite (proj2 (forallb_forall _ _)); [reflexivity|]. intros r Hr. apply in_map_iff in Hr as (y & <- & _).
  rewrite !map_length. apply Nat.eqb_refl.
Qed.

Lemma vec_eq m X xs f h : row_callee m f (dim X) h -> wf_data X -> (f < dim X)%nat ->
  pdp_1d_vectorized m X xs f false = Ok (ice_matrix (fun r x => h (list_set r f (store (dt X) x))) (rows X) xs).
Proof.
  intros R W F. unfold pdp_1d_vectorized. rewrite (proj2 (Nat.ltb_lt _ _) F). rewrite assign_tensor_eq.
  replace (match m with CPred _ | _ => _ end) with
    (y <- call_model m f (concat (map (fun x => assign_col (dt X) f x (rows X)) xs)) ;; reshape2 (length xs) (length (rows X)) y)
    by (destruct m; reflexivity).
  rewrite R.
  2:{ intros r Hr. apply in_concat in Hr as (Z & HZ & Hr). apply in_map_iff in HZ as (x & <- & _). exact (assign_col_wf X f x W r Hr). }
  unfold bind. rewrite concat_map, map_map.
  replace (length xs) with (length (map (fun x => map h (assign_col (dt X) f x (rows X))) xs)) by apply map_length.
  rewrite reshape2_concat.
  - f_equal. unfold ice_matrix. apply map_ext. intros x. unfold assign_col. now rewrite map_map.
  - intros r Hr. apply in_map_iff in Hr as (x & <- & _). unfold assign_col. now rewrite !map_length.
Qed.

Lemma vec_der_eq g X xs f : wf_data X -> (f < dim X)%nat ->
  pdp_1d_vectorized (CPred (map g)) X xs f true =
    Ok (ice_matrix (fun r x => (g (list_set r f (store (dt X) (x + STEP))) - g (list_set r f (store (dt X) (x - STEP)))) / (Q2Qc 2 * STEP)) (rows X) xs).
Proof.
  intros W F. unfold pdp_1d_vectorized. rewrite (proj2 (Nat.ltb_lt _ _) F).
  assert (T1 : tensor X (length xs) = tensor X (length (map (fun x => x + STEP) xs))) by now rewrite map_length.
  assert (T2 : tensor X (length xs) = tensor X (length (map (fun x => x - STEP) xs))) by now rewrite map_length.
  rewrite T1 at 1. rewrite T2. rewrite !assign_tensor_eq, !map_map.
  set (Z := rows X) in *. unfold cdiff. rewrite !concat_map, !map_map.
  set (a := fun x => map g (assign_col (dt X) f (x + STEP) Z)). set (b := fun x => map g (assign_col (dt X) f (x - STEP) Z)).
  assert (L : forall (k : Qc -> list Qc), (forall x, length (k x) = length Z) -> length (concat (map k xs)) = (length xs * length Z)%nat).
  { intros k Hk. rewrite (concat_length_uniform _ (length Z)). - now rewrite map_length. - intros r Hr. apply in_map_iff in Hr as (x & <- & _). apply Hk. }
  assert (La : forall x, length (a x) = length Z) by (intros; unfold a, assign_col; now rewrite !map_length).
  assert (Lb : forall x, length (b x) = length Z) by (intros; unfold b, assign_col; now rewrite !map_length).
  rewrite vzip_eq by (rewrite !L by assumption; reflexivity).
  unfold bind.
  assert (E : map (fun p => (fst p - snd p) / (Q2Qc 2 * STEP)) (combine (concat (map a xs)) (concat (map b xs))) =
     concat (ice_matrix (fun r x => (g (list_set r f (store (dt X) (x + STEP))) - g (list_set r f (store (dt X) (x - STEP)))) / (Q2Qc 2 * STEP)) Z xs)).
  { clear T1 T2 L. induction xs as [|x xs IH]; simpl; [reflexivity|]. rewrite <- IH.
    assert (CA : forall (p q p' q' : list Qc), length p = length q -> combine (p ++ p') (q ++ q') = combine p q ++ combine p' q').
    { intros p. induction p as [|u p IHp]; intros [|w q] p' q' Hl; simpl in *; try lia; [reflexivity|]. f_equal. apply IHp. lia. }
    rewrite CA by now rewrite La, Lb. rewrite map_app. f_equal. unfold a, b, assign_col. rewrite !map_map.
    rewrite combine_self_map, map_map. reflexivity. }
  rewrite E.
  set (M := ice_matrix _ Z xs). replace (length xs) with (length M) by (unfold M, ice_matrix; apply map_length).
  apply reshape2_concat. intros r Hr. unfold M, ice_matrix in Hr. apply in_map_iff in Hr as (x & <- & _). apply map_length.
Qed.

Lemma nonvec_eq m X xs f h : xs <> [] -> row_callee m f (dim X) h -> wf_data X -> (f < dim X)%nat ->
  pdp_1d_non_vectorized m X xs f false = Ok (ice_matrix (fun r x => h (list_set r f (store (dt X) x))) (rows X) xs).
Proof.
  intros NE R W F. unfold pdp_1d_non_vectorized. rewrite (proj2 (Nat.ltb_lt _ _) F).
  rewrite (mapM_ok _ (fun x => map (fun r => h (list_set r f (store (dt X) x))) (rows X))).
  - unfold bind. apply (stack_rows_ok (fun r x => h (list_set r f (store (dt X) x)))). exact NE.
  - intros x _. replace (match m with CPred _ | _ => _ end) with (call_model m f (assign_col (dt X) f x (rows X))) by (destruct m; reflexivity).
    rewrite R by (apply assign_col_wf; exact W). unfold assign_col. now rewrite map_map.
Qed.

Lemma nonvec_der_eq g X xs f : xs <> [] -> wf_data X -> (f < dim X)%nat ->
  pdp_1d_non_vectorized (CPred (map g)) X xs f true =
    Ok (ice_matrix (fun r x => (g (list_set r f (store (dt X) (x + STEP))) - g (list_set r f (store (dt X) (x - STEP)))) / (Q2Qc 2 * STEP)) (rows X) xs).
Proof.
  intros NE W F. unfold pdp_1d_non_vectorized. rewrite (proj2 (Nat.ltb_lt _ _) F).
  rewrite (mapM_ok _ (fun x => map (fun r => (g (list_set r f (store (dt X) (x + STEP))) - g (list_set r f (store (dt X) (x - STEP)))) / (Q2Qc 2 * STEP)) (rows X))).
  - unfold bind. apply (stack_rows_ok (fun r x => (g (list_set r f (store (dt X) (x + STEP))) - g (list_set r f (store (dt X) (x - STEP)))) / (Q2Qc 2 * STEP))). exact NE.
  - intros x _. unfold cdiff, assign_col. rewrite !map_map. now rewrite vzip_map.
Qed.

(** ** Objects with row-wise model (and Jacobian) *)

(** The value of the ICE / d-ICE curve of instance [r] at [x]; [d] is the dtype of the data. *)
Definition pvalue (k : pkind) (d : dtype) (g : list Qc -> Qc) (G : list Qc -> list Qc) (f : nat) (r : list Qc) (x : Qc) : Qc :=
  match k with
  | KPDP => g (list_set r f (store d x))
  | KDer (Some _) => nth f (G (list_set r f (store d x))) 0
  | KDer None => (g (list_set r f (store d (x + STEP))) - g (list_set r f (store d (x - STEP)))) / (Q2Qc 2 * STEP)
  end.
Definition row_object (c : pconfig) (D : nat) (g : list Qc -> Qc) (G : list Qc -> list Qc) : Prop :=
  p_model c = map g /\
  match p_kind c with KDer (Some j) => j = map G /\ forall r, length r = D -> length (G r) = D | _ => True end.

Lemma row_callee_pred g f D : row_callee (CPred (map g)) f D g.
Proof. intros Z _. reflexivity. Qed.
Lemma row_callee_jac G f D : (f < D)%nat -> (forall r, length r = D -> length (G r) = D) -> row_callee (CJac (map G)) f D (fun r => nth f (G r) 0).
Proof.
  intros F H Z HZ. simpl. rewrite (mapM_ok _ (fun r => nth f r 0)).
  - now rewrite map_map.
  - intros r Hr. apply in_map_iff in Hr as (r0 & <- & H0). apply getn_ok. rewrite H; auto.
Qed.

Section Obj.
Variables (c : pconfig) (g : list Qc -> Qc) (G : list Qc -> list Qc).

Lemma predict_eq vec X xs f : row_object c (dim X) g G -> wf_data X -> (f < dim X)%nat -> vec = true \/ xs <> [] ->
  predict c vec X xs f = Ok (ice_matrix (pvalue (p_kind c) (dt X) g G f) (rows X) xs).
Proof.
  intros (Hm & Hk) W F V. unfold predict. rewrite Hm.
  destruct (p_kind c) as [|[j|]] eqn:K.
  - destruct vec.
    + now rewrite (vec_eq _ X xs f g (row_callee_pred g f (dim X)) W F).
    + destruct V as [V|V]; [discriminate|]. now rewrite (nonvec_eq _ X xs f g V (row_callee_pred g f (dim X)) W F).
  - destruct Hk as (-> & HG). destruct vec.
    + now rewrite (vec_eq _ X xs f _ (row_callee_jac G f (dim X) F HG) W F).
    + destruct V as [V|V]; [discriminate|]. now rewrite (nonvec_eq _ X xs f _ V (row_callee_jac G f (dim X) F HG) W F).
  - destruct vec.
    + now rewrite (vec_der_eq g X xs f W F).
    + destruct V as [V|V]; [discriminate|]. now rewrite (nonvec_der_eq g X xs f V W F).
Qed.
End Obj.

(** ** Which instances an object works with *)
Definition in_limits (c : pconfig) (f : nat) (r : list Qc) : bool := ((p_mins c)@f <=? r@f) && (r@f <=? (p_maxs c)@f).
Definition within (c : pconfig) (T : list nat) (X : data) : data :=
  mkData (dt X) (dim X) (filter (fun r => forallb (fun f => in_limits c f r) T) (rows X)).
Definition limits_ok (c : pconfig) (D : nat) : Prop := length (p_mins c) = D /\ length (p_maxs c) = D.
Definition touches (f : nat) (k : pcall) : Prop :=
  match k with PFit fs _ _ _ => In f fs | PEval g _ _ _ _ _ => g = f end.

Lemma within_nil c X : within c [] X = X.
Proof. unfold within. simpl. destruct X as [d n rs]; simpl. f_equal. apply filter_all. reflexivity. Qed.
Lemma within_dim c T X : dim (within c T X) = dim X. Proof. reflexivity. Qed.
Lemma within_dt c T X : dt (within c T X) = dt X. Proof. reflexivity. Qed.
Lemma within_wf c T X : wf_data X -> wf_data (within c T X).
Proof. intros W r Hr. simpl in *. apply filter_In in Hr as (Hr & _). now apply W. Qed.
Lemma drop_within c T X f : drop_points_outside (within c T X) (p_mins c)@f (p_maxs c)@f f = within c (f :: T) X.
Proof.
  unfold drop_points_outside, within. cbn [dt dim rows]. f_equal. rewrite !filter_filter. apply filter_ext. intros r.
  cbn [forallb]. unfold in_limits at 2. rewrite (andb_comm (_ && _)), andb_assoc. reflexivity.
Qed.

Lemma within_all c X T : (forall f r, (f < dim X)%nat -> In r (rows X) -> (p_mins c)@f <= r@f <= (p_maxs c)@f) ->
  (forall f, In f T -> (f < dim X)%nat) -> within c T X = X.
Proof.
  intros INL H. unfold within. destruct X as [d n rs]; simpl in *. f_equal. apply filter_all. intros r Hr. apply forallb_forall. intros f Hf.
  unfold in_limits. destruct (INL f r (H f Hf) Hr). apply andb_true_iff. split; now apply Qcleb_le.
Qed.

(** Whatever the history, self.data consists of the instances inside the limits of some of the touched features,
    and of every fitted feature. *)
Definition touched (ks : list pcall) (f : nat) : Prop := exists k, In k ks /\ touches f k.

Section Hist.
Variables (c : pconfig) (X : data).
Hypothesis LIM : limits_ok c (dim X).

Definition dinv (P : nat -> Prop) (st : pstate) : Prop :=
  exists T, ps_data st = within c T X /\ (forall f, In f T -> P f /\ (f < dim X)%nat) /\ (forall f, ps_fitted st f = true -> In f T).

Lemma pfit_feature_data T f ce pts vec : (f < dim X)%nat ->
  fst (pfit_feature c (within c T X) f ce pts vec) = within c (f :: T) X.
Proof.
  intros F. unfold pfit_feature. rewrite within_dim, (proj2 (Nat.ltb_lt _ _) F).
  destruct LIM as (L1 & L2). rewrite !(getn_ok _ f 0) by lia. unfold bind.
  destruct (drop_within c T X f). reflexivity.
Qed.

Lemma pfit_one_dinv (P : nat -> Prop) st f ce pts vec : P f -> dinv P st -> dinv P (fst (pfit_one c st f ce pts vec)).
Proof.
  intros HP (T & HD & HT & HF). unfold pfit_one.
  destruct (Nat.lt_ge_cases f (dim X)) as [F|F].
  - pose proof (pfit_feature_data T f ce pts vec F) as E. rewrite HD.
    destruct (pfit_feature c (within c T X) f ce pts vec) as (X' & r). simpl in E. subst X'.
    exists (f :: T). destruct r; simpl; (split; [reflexivity|]); split.
    + intros k [<-|Hk]; auto.
    + intros k Hk. unfold upd in Hk. destruct (Nat.eqb k f) eqn:EK; [apply Nat.eqb_eq in EK; subst k; now left|]. right. exact (HF k Hk).
    + intros k [<-|Hk]; auto.
    + intros k Hk. right. exact (HF k Hk).
  - unfold pfit_feature. rewrite HD, within_dim. replace (Nat.ltb f (dim X)) with false by (symmetry; apply Nat.ltb_ge; exact F).
    simpl. exists T. auto.
Qed.
Lemma pfit_loop_dinv (P : nat -> Prop) fs : forall st ce pts vec, (forall f, In f fs -> P f) -> dinv P st -> dinv P (fst (pfit_loop c st fs ce pts vec)).
Proof.
  induction fs as [|f fs IH]; intros st ce pts vec HP HI; simpl; [exact HI|].
  pose proof (pfit_one_dinv P st f ce pts vec (HP f (or_introl eq_refl)) HI) as H1.
  destruct (pfit_one c st f ce pts vec) as (st' & [u|e]); simpl in *; [|exact H1].
  apply IH; [|exact H1]. intros k Hk. apply HP. now right.
Qed.
Lemma pfit_dinv (P : nat -> Prop) st fs cv pts vec : (forall f, In f fs -> P f) -> dinv P st -> dinv P (fst (pfit c st fs cv pts vec)).
Proof. intros HP HI. unfold pfit. destruct (prep_cent cv); [|exact HI]. now apply pfit_loop_dinv. Qed.
Lemma peval_dinv (P : nat -> Prop) rt st f xs het cv al vec : P f -> dinv P st -> dinv P (fst (peval c rt st f xs het cv al vec)).
Proof.
  intros HP HI. unfold peval. destruct (prep_cent cv) as [ce|e] eqn:EC; [|exact HI].
  destruct (prefit st f ce) as [[|]|e]; [|exact HI|exact HI].
  pose proof (pfit_dinv P st [f] cv default_pts vec) as H1.
  assert (H2 : dinv P (fst (pfit c st [f] cv default_pts vec))) by (apply H1; [intros k [<-|[]]; exact HP|exact HI]).
  destruct (pfit c st [f] cv default_pts vec) as (st' & [u|e]); simpl in *; exact H2.
Qed.
Lemma pstep_dinv (P : nat -> Prop) rt st k : (forall f, touches f k -> P f) -> dinv P st -> dinv P (pstep c rt st k).
Proof.
  intros HP HI. destruct k as [fs cv pts vec|f xs het cv al vec]; simpl in *; [apply pfit_dinv|apply peval_dinv]; auto.
Qed.
Lemma prun_dinv (P : nat -> Prop) rt ks : forall st, (forall f, touched ks f -> P f) -> dinv P st -> dinv P (prun c rt st ks).
Proof.
  induction ks as [|k ks IH]; intros st HP HI; simpl; [exact HI|]. apply IH.
  - intros f (k' & Hk & Ht). apply HP. exists k'. split; [now right|exact Ht].
  - apply pstep_dinv; [|exact HI]. intros f Ht. apply HP. exists k. split; [now left|exact Ht].
Qed.
Lemma dinv_fresh P : dinv P (pfresh X).
Proof. exists []. rewrite within_nil. simpl. split; [reflexivity|]. split; [intros f []|discriminate]. Qed.
End Hist.

(** ** Centering: what is subtracted from the curve of instance [r] *)
Definition shift (v : list Qc -> Qc -> Qc) (lo hi : Qc) (n : nat) (ce : cent) (r : list Qc) : Qc :=
  match ce with
  | NoCent => 0
  | ZeroStart => v r lo
  | ZeroIntegral => mean (map (v r) (linspace lo hi n))
  end.
(** The (T,N) matrix of the centered curves, and the three forms of the result. *)
Definition centered (v : list Qc -> Qc -> Qc) (s : list Qc -> Qc) (Z : Mat) (xs : list Qc) : Mat :=
  map (fun x => map (fun r => v r x - s r) Z) xs.
Definition summary (rt : Qc -> Qc) (al het : bool) (M : Mat) : pout :=
  if al then OAll M else if het then OMeanStd (row_means M) (row_stds rt M) else OMean (row_means M).

Lemma mapM_getn_col (Z : Mat) (v : list Qc -> Qc -> Qc) xs i d : (i < length Z)%nat ->
  map (fun r => nth i r 0) (ice_matrix v Z xs) = map (v (nth i Z d)) xs.
Proof. intros H. unfold ice_matrix. rewrite map_map. apply map_ext. intros x. now rewrite nth_map_in with (d := d). Qed.

Lemma col_means_eq v Z xs : xs <> [] -> col_means (width (length Z) (ice_matrix v Z xs)) (ice_matrix v Z xs) = Ok (map (fun r => mean (map (v r) xs)) Z).
Proof.
  intros NE. assert (W : width (length Z) (ice_matrix v Z xs) = length Z) by (destruct xs; [reflexivity|simpl; apply map_length]). rewrite W.
  unfold col_means. destruct (ice_matrix v Z xs) as [|r0 rs] eqn:E.
  - destruct xs; [congruence|discriminate].
  - rewrite <- E. f_equal. apply list_ext with 0; [now rewrite !map_length, seq_length|].
    rewrite map_length, seq_length. intros i Hi. rewrite nth_map_in with (d := 0%nat) by now rewrite seq_length.
    rewrite nth_seq by exact Hi. simpl (0 + i)%nat. rewrite nth_map_in with (d := []) by exact Hi.
    rewrite (mapM_getn_col Z v xs i [] Hi). unfold mean. rewrite map_length. unfold ice_matrix. now rewrite map_length.
Qed.

Lemma sub_norm_eq v s Z xs : sub_norm (length Z) (ice_matrix v Z xs) (map s Z) = Ok (centered v s Z xs).
Proof.
  unfold sub_norm. assert (W : width (length Z) (ice_matrix v Z xs) = length Z) by (destruct xs; [reflexivity|simpl; apply map_length]).
  rewrite W, map_length, Nat.eqb_refl. simpl orb. cbv iota. unfold ice_matrix.
  assert (E : mapM (fun r => vzip Qcminus r (map s Z)) (map (fun x => map (fun r => v r x) Z) xs) = Ok (centered v s Z xs)).
  { induction xs as [|x xs IH]; [reflexivity|]. simpl. rewrite vzip_map. simpl.
    rewrite IH; [reflexivity|]. destruct xs; [reflexivity|simpl; apply map_length]. }
  exact E.
Qed.
Lemma centered_zero v Z xs : centered v (fun _ => 0) Z xs = ice_matrix v Z xs.
Proof. unfold centered, ice_matrix. apply map_ext. intros x. apply map_ext. intros r. ring. Qed.

(** ** Results of eval *)
Section Eval.
Variables (c : pconfig) (g : list Qc -> Qc) (G : list Qc -> list Qc) (X : data).
Hypothesis RO : row_object c (dim X) g G.
Hypothesis WF : wf_data X.
Hypothesis LIM : limits_ok c (dim X).
Notation v := (fun f => pvalue (p_kind c) (dt X) g G f).
Notation lo f := ((p_mins c)@f).
Notation hi f := ((p_maxs c)@f).
Definition shift_at (f n : nat) (ce : cent) : list Qc -> Qc := shift (v f) (lo f) (hi f) n ce.

(** the norm constant that fit stores *)
Lemma pfit_feature_norm T f ce pts vec nrm : (f < dim X)%nat -> snd (pfit_feature c (within c T X) f ce pts vec) = Ok nrm ->
  ce = NoCent \/ exists n, (ce = ZeroIntegral -> pts_of pts = Ok n) /\ (1 <= n)%nat /\ nrm = map (shift_at f n ce) (rows (within c (f :: T) X)).
Proof.
  intros F. unfold pfit_feature. rewrite within_dim, (proj2 (Nat.ltb_lt _ _) F).
  destruct LIM as (L1 & L2). rewrite !(getn_ok _ f 0) by lia. unfold bind at 1 2.
  rewrite (drop_within c T X f). cbn [snd].
  pose proof (within_wf c (f :: T) X WF) as W'.
  destruct ce; intros H.
  - now left.
  - right. exists 1%nat. split; [discriminate|]. split; [lia|].
    rewrite (predict_eq c g G vec (within c (f :: T) X) [lo f] f RO W' F) in H by (right; discriminate).
    simpl in H. injection H as <-. reflexivity.
  - right. apply bind_ok in H as (n & Hn & H). exists n. split; [auto|].
    destruct n as [|n].
    { exfalso. simpl in H. destruct vec.
      - rewrite (predict_eq c g G true (within c (f :: T) X) [] f RO W' F) in H by now left. simpl in H. discriminate.
      - unfold predict in H. destruct (p_kind c) as [|[j|]]; simpl in H; discriminate. }
    split; [lia|].
    assert (NE : linspace (lo f) (hi f) (S n) <> []). { intros E. apply (f_equal (@length _)) in E. rewrite linspace_length in E. discriminate. }
    rewrite (predict_eq c g G vec (within c (f :: T) X) _ f RO W' F) in H by now right.
    unfold bind in H. rewrite within_dt in H. rewrite (col_means_eq (pvalue (p_kind c) (dt X) g G f) (rows (within c (f :: T) X)) _ NE) in H. injection H as <-. reflexivity.
Qed.

(** success of fit with the default number of points *)
Lemma pfit_feature_default T f ce vec : (f < dim X)%nat ->
  pfit_feature c (within c T X) f ce default_pts vec =
    (within c (f :: T) X, Ok match ce with NoCent => [EMPTY_SYMBOL] | _ => map (shift_at f 100 ce) (rows (within c (f :: T) X)) end).
Proof.
  intros F. unfold pfit_feature. rewrite within_dim, (proj2 (Nat.ltb_lt _ _) F).
  destruct LIM as (L1 & L2). rewrite !(getn_ok _ f 0) by lia. unfold bind at 1 2.
  rewrite (drop_within c T X f). f_equal.
  pose proof (within_wf c (f :: T) X WF) as W'.
  destruct ce.
  - reflexivity.
  - rewrite (predict_eq c g G vec (within c (f :: T) X) [lo f] f RO W' F) by (right; discriminate). reflexivity.
  - unfold default_pts, pts_of. change (100 <? 0)%Z with false. cbv iota. change (Z.to_nat 100) with 100%nat. unfold bind at 1.
    assert (NE : linspace (lo f) (hi f) 100 <> []). { intros E. apply (f_equal (@length _)) in E. rewrite linspace_length in E. discriminate. }
    rewrite (predict_eq c g G vec (within c (f :: T) X) _ f RO W' F) by now right.
    unfold bind. rewrite within_dt. now rewrite (col_means_eq (pvalue (p_kind c) (dt X) g G f) (rows (within c (f :: T) X)) _ NE).
Qed.

(** the part of eval after the refit *)
Lemma peval_fitted_eq rt st T f xs het ce al vec s : ps_data st = within c T X -> (f < dim X)%nat -> lo f < hi f -> vec = true \/ xs <> [] ->
  (ce = NoCent -> s = fun _ => 0) -> (ce <> NoCent -> ps_norm st f = Some (map s (rows (within c T X)))) ->
  peval_fitted c rt st f xs het ce al vec = Ok (summary rt al het (centered (v f) s (rows (within c T X)) xs)).
Proof.
  intros HD F LH V S0 S1. unfold peval_fitted. destruct LIM as (L1 & L2). rewrite !(getn_ok _ f 0) by lia. unfold bind at 1 2.
  rewrite (proj2 (Qcltb_lt _ _) LH). unfold assert_, bind at 1. rewrite HD.
  rewrite (predict_eq c g G vec (within c T X) xs f RO (within_wf c T X WF) F V). unfold bind at 1.
  destruct ce.
  - unfold bind. rewrite (S0 eq_refl), centered_zero. reflexivity.
  - rewrite (S1 ltac:(discriminate)), sub_norm_eq. reflexivity.
  - rewrite (S1 ltac:(discriminate)), sub_norm_eq. reflexivity.
Qed.

(** eval when a refit is needed (in particular on a fresh object) *)
Lemma peval_refit rt st T f xs het cv ce al vec : ps_data st = within c T X -> prep_cent cv = Ok ce -> prefit st f ce = Ok true ->
  (f < dim X)%nat -> lo f < hi f -> vec = true \/ xs <> [] ->
  snd (peval c rt st f xs het cv al vec) = Ok (summary rt al het (centered (v f) (shift_at f 100 ce) (rows (within c (f :: T) X)) xs)) /\
  ps_data (fst (peval c rt st f xs het cv al vec)) = within c (f :: T) X.
Proof.
  intros HD PC PR F LH V. unfold peval. rewrite PC, PR. unfold pfit. rewrite PC. simpl pfit_loop. unfold pfit_one.
  rewrite HD, (pfit_feature_default T f ce vec F). cbn [fst snd]. split; [|reflexivity].
  apply peval_fitted_eq; cbn [ps_data ps_norm]; auto.
  - intros ->. reflexivity.
  - intros N. rewrite upd_same. destruct ce; [congruence|reflexivity|reflexivity].
Qed.

Lemma prefit_fresh f ce : (f < dim X)%nat -> prefit (pfresh X) f ce = Ok true.
Proof. intros F. unfold prefit. simpl. now rewrite (proj2 (Nat.ltb_lt _ _) F). Qed.

Lemma peval_fresh rt f xs het cv ce al vec : prep_cent cv = Ok ce -> (f < dim X)%nat -> lo f < hi f -> vec = true \/ xs <> [] ->
  snd (peval c rt (pfresh X) f xs het cv al vec) = Ok (summary rt al het (centered (v f) (shift_at f 100 ce) (rows (within c [f] X)) xs)).
Proof.
  intros PC F LH V. apply (peval_refit rt (pfresh X) [] f xs het cv ce al vec); auto; [now rewrite within_nil|now apply prefit_fresh].
Qed.

(** eval without centering, whatever the history *)
Lemma peval_uncentered rt ks f xs het al vec : (f < dim X)%nat -> lo f < hi f -> vec = true \/ xs <> [] ->
  exists T, In f T /\ (forall k, In k T -> k = f \/ touched ks k) /\
    snd (peval c rt (prun c rt (pfresh X) ks) f xs het (PyBool false) al vec) =
      Ok (summary rt al het (ice_matrix (v f) (rows (within c T X)) xs)).
Proof.
  intros F LH V. destruct (prun_dinv c X LIM (touched ks) rt ks (pfresh X) (fun _ H => H) (dinv_fresh c X (touched ks))) as (T & HD & HT & HF).
  set (st := prun c rt (pfresh X) ks) in *.
  destruct (ps_fitted st f) eqn:EF.
  - exists T. split; [now apply HF|]. split; [intros k Hk; right; now apply HT|].
    assert (PR : prefit st f NoCent = Ok false). { unfold prefit. now rewrite HD, within_dim, (proj2 (Nat.ltb_lt _ _) F), EF. }
    unfold peval. change (prep_cent (PyBool false)) with (@Ok cent NoCent). cbv iota beta. rewrite PR. cbn [snd].
    rewrite (peval_fitted_eq rt st T f xs het NoCent al vec (fun _ => 0)); auto; [|congruence]. now rewrite centered_zero.
  - exists (f :: T). split; [now left|]. split; [intros k [<-|Hk]; [now left|right; now apply HT]|].
    destruct (peval_refit rt st T f xs het (PyBool false) NoCent al vec) as (E & _); auto.
    { unfold prefit. rewrite HD, within_dim, (proj2 (Nat.ltb_lt _ _) F), EF. reflexivity. }
    rewrite E. unfold shift_at, shift. now rewrite centered_zero.
Qed.

(** ** All the instances inside the axis limits (always so for the default limits) *)
Hypothesis INL : forall f r, (f < dim X)%nat -> In r (rows X) -> lo f <= r@f <= hi f.

(** numbers of centering points a history uses for feature [f] *)
Definition asked_points (ks : list pcall) (f n : nat) : Prop :=
  n = 100%nat \/ exists fs cv pts vec, In (PFit fs cv pts vec) ks /\ In f fs /\ pts_of pts = Ok n.

Definition ninv (Q : nat -> nat -> Prop) (st : pstate) : Prop :=
  ps_data st = X /\
  forall f, ps_fitted st f = true -> (f < dim X)%nat /\
    exists ce n, ps_args st f = Some ce /\ (ce = ZeroIntegral -> Q f n) /\ (1 <= n)%nat /\
      (ce <> NoCent -> ps_norm st f = Some (map (shift_at f n ce) (rows X))).

Lemma pfit_one_ninv (Q : nat -> nat -> Prop) st f ce pts vec : (forall n, pts_of pts = Ok n -> Q f n) -> ninv Q st -> ninv Q (fst (pfit_one c st f ce pts vec)).
Proof.
  intros HQ (HD & HF). unfold pfit_one. destruct (Nat.lt_ge_cases f (dim X)) as [F|F].
  - pose proof (pfit_feature_data c X LIM [] f ce pts vec F) as E. pose proof (pfit_feature_norm [] f ce pts vec) as E2.
    rewrite within_nil in E, E2. rewrite HD.
    assert (WA : within c [f] X = X) by (apply within_all; [exact INL|]; intros k [<-|[]]; exact F). rewrite WA in E, E2.
    destruct (pfit_feature c X f ce pts vec) as (X' & [nrm|e]); simpl in E; subst X'; cbn [fst].
    + split; [reflexivity|]. cbn [ps_fitted ps_args ps_norm]. intros k Hk. unfold upd in *. destruct (Nat.eqb k f) eqn:EK.
      * apply Nat.eqb_eq in EK. subst k. split; [exact F|].
        destruct (E2 nrm F eq_refl) as [->|(n & Hn & L & ->)].
        -- exists NoCent, 1%nat. repeat split; [discriminate|lia|congruence].
        -- exists ce, n. split; [reflexivity|]. split; [intros Hc; apply HQ, Hn, Hc|]. split; [exact L|reflexivity].
      * now apply HF.
    + split; [reflexivity|]. exact HF.
  - unfold pfit_feature. rewrite HD. replace (Nat.ltb f (dim X)) with false by (symmetry; apply Nat.ltb_ge; exact F).
    simpl. split; [reflexivity|exact HF].
Qed.
Lemma pfit_loop_ninv (Q : nat -> nat -> Prop) fs : forall st ce pts vec, (forall f n, In f fs -> pts_of pts = Ok n -> Q f n) -> ninv Q st ->
  ninv Q (fst (pfit_loop c st fs ce pts vec)).
Proof.
  induction fs as [|f fs IH]; intros st ce pts vec HQ HI; simpl; [exact HI|].
  pose proof (pfit_one_ninv Q st f ce pts vec (fun n => HQ f n (or_introl eq_refl)) HI) as H1.
  destruct (pfit_one c st f ce pts vec) as (st' & [u|e]); simpl in *; [|exact H1].
  apply IH; [|exact H1]. intros k n Hk. apply HQ. now right.
Qed.
Lemma pstep_ninv (Q : nat -> nat -> Prop) rt st k :
  (forall f, Q f 100%nat) -> (forall fs cv pts vec f n, k = PFit fs cv pts vec -> In f fs -> pts_of pts = Ok n -> Q f n) ->
  ninv Q st -> ninv Q (pstep c rt st k).
Proof.
  intros Q100 HQ HI. destruct k as [fs cv pts vec|f xs het cv al vec]; simpl.
  - unfold pfit. destruct (prep_cent cv); [|exact HI]. apply pfit_loop_ninv; [|exact HI]. intros f n Hf Hp. exact (HQ fs cv pts vec f n eq_refl Hf Hp).
  - unfold peval. destruct (prep_cent cv) as [ce|e] eqn:EC; [|exact HI].
    destruct (prefit st f ce) as [[|]|e]; [|exact HI|exact HI].
    assert (H2 : ninv Q (fst (pfit c st [f] cv default_pts vec))).
    { unfold pfit. rewrite EC. apply pfit_loop_ninv; [|exact HI]. intros k n _ Hp. injection Hp as <-. change (Pos.to_nat 100) with 100%nat. apply Q100. }
    destruct (pfit c st [f] cv default_pts vec) as (st' & [u|e]); simpl in *; exact H2.
Qed.
Lemma prun_ninv rt ks : ninv (asked_points ks) (prun c rt (pfresh X) ks).
Proof.
  assert (H : forall ks' st, (forall k, In k ks' -> In k ks) -> ninv (asked_points ks) st -> ninv (asked_points ks) (prun c rt st ks')).
  { induction ks' as [|k ks' IH]; intros st HI HN; simpl; [exact HN|]. apply IH; [intros; apply HI; now right|].
    apply pstep_ninv; [now left| |exact HN]. intros fs cv pts vec f n -> Hf Hp. right. exists fs, cv, pts, vec. split; [apply HI; now left|auto]. }
  apply H; [auto|]. split; [reflexivity|]. discriminate.
Qed.

(** eval succeeds and is the centered ICE matrix, whatever the history *)
Lemma peval_history rt ks f cv ce : prep_cent cv = Ok ce -> (f < dim X)%nat -> lo f < hi f ->
  exists n, (ce = ZeroIntegral -> asked_points ks f n) /\ (1 <= n)%nat /\
    forall xs het al vec, vec = true \/ xs <> [] ->
    snd (peval c rt (prun c rt (pfresh X) ks) f xs het cv al vec) =
      Ok (summary rt al het (centered (v f) (shift_at f n ce) (rows X) xs)).
Proof.
  intros PC F LH. destruct (prun_ninv rt ks) as (HD & HF). set (st := prun c rt (pfresh X) ks) in *.
  assert (WA : within c [f] X = X) by (apply within_all; [exact INL|]; intros k [<-|[]]; exact F).
  assert (HDn : ps_data st = within c [] X) by now rewrite within_nil.
  destruct (prefit st f ce) as [[|]|e] eqn:PR.
  - exists 100%nat. split; [now left|]. split; [lia|]. intros xs het al vec V.
    destruct (peval_refit rt st [] f xs het cv ce al vec HDn PC PR F LH V) as (E & _). rewrite E, WA. reflexivity.
  - pose proof PR as PR0. unfold prefit in PR. rewrite HD, (proj2 (Nat.ltb_lt _ _) F) in PR. destruct (ps_fitted st f) eqn:EF; [|discriminate]. simpl in PR.
    destruct (HF f EF) as (_ & ce' & n & HA & HQ & Hn & HN).
    exists n.
    assert (CE : ce <> NoCent -> ce' = ce).
    { intros NC. rewrite HA in PR. destruct ce; [congruence| |]; destruct ce'; simpl in PR; congruence. }
    split. { intros ->. apply HQ. now apply CE. }
    split; [exact Hn|]. intros xs het al vec V.
    unfold peval. rewrite PC, PR0. cbn [snd].
    rewrite (peval_fitted_eq rt st [] f xs het ce al vec (shift_at f n ce)); auto; rewrite ?within_nil; auto.
    + intros ->. reflexivity.
    + intros NC. pose proof (CE NC). subst ce'. now apply HN.
  - exfalso. unfold prefit in PR. rewrite HD, (proj2 (Nat.ltb_lt _ _) F) in PR. destruct (ps_fitted st f) eqn:EF; [|discriminate].
    destruct (HF f EF) as (_ & ce' & n & HA & _). rewrite HA in PR. simpl in PR. destruct ce; discriminate.
Qed.
End Eval.
