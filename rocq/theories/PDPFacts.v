(** PDPFacts: locality of calls, additive models, n-dimensional variants. *)
From Verif Require Import Base Numpy Spec NumpyFacts Utils UtilsProofs LocalProofs ParamsProofs Helpers HelpersProofs GlobalALE ALEState GlobalPDP PDPProofs.
Open Scope Qc_scope.
Open Scope list_scope.

(** ** Summaries in terms of mean and variance *)
Lemma np_var_some l : l <> [] -> np_var l = Some (variance l).
Proof. destruct l as [|a l]; [congruence|]. intros _. unfold np_var, variance, mean. now rewrite map_length. Qed.

Lemma row_means_some (k : Qc -> list Qc -> Qc) Z xs : Z <> [] ->
  row_means (map (fun x => map (k x) Z) xs) = map (fun x => Some (mean (map (k x) Z))) xs.
Proof.
  intros NE. unfold row_means. rewrite map_map. apply map_ext. intros x. apply np_mean_some. destruct Z; [congruence|discriminate].
Qed.
Lemma row_stds_some rt (k : Qc -> list Qc -> Qc) Z xs : Z <> [] ->
  row_stds rt (map (fun x => map (k x) Z) xs) = map (fun x => Some (rt (variance (map (k x) Z)))) xs.
Proof.
  intros NE. unfold row_stds. rewrite map_map. apply map_ext. intros x. rewrite np_var_some; [reflexivity|]. destruct Z; [congruence|discriminate].
Qed.

(** ** Calls on other features *)
Section Local.
Variables (c : pconfig) (X : data).
Hypothesis LIM : limits_ok c (dim X).
Hypothesis INL : forall f r, (f < dim X)%nat -> In r (rows X) -> (p_mins c)@f <= r@f <= (p_maxs c)@f.

Definition same_at (f : nat) (s1 s2 : pstate) : Prop :=
  ps_data s1 = X /\ ps_data s2 = X /\ ps_norm s1 f = ps_norm s2 f /\ ps_args s1 f = ps_args s2 f /\ ps_fitted s1 f = ps_fitted s2 f.

Lemma pfit_one_other st k ce pts vec f : ps_data st = X -> k <> f -> same_at f st (fst (pfit_one c st k ce pts vec)).
Proof.
  intros HD NE. unfold pfit_one. rewrite HD.
  assert (E : fst (pfit_feature c X k ce pts vec) = X).
  { destruct (Nat.lt_ge_cases k (dim X)) as [F|F].
    - pose proof (pfit_feature_data c X LIM [] k ce pts vec F) as E. rewrite within_nil in E. rewrite E.
      apply within_all; [exact INL|]. intros j [<-|[]]. exact F.
    - unfold pfit_feature. now replace (Nat.ltb k (dim X)) with false by (symmetry; apply Nat.ltb_ge; exact F). }
  destruct (pfit_feature c X k ce pts vec) as (X' & [n|e]); simpl in E; subst X'; repeat split; simpl; auto; rewrite upd_other; auto.
Qed.
Lemma same_at_trans f a b d : same_at f a b -> same_at f b d -> same_at f a d.
Proof. intros (?&?&?&?&?) (?&?&?&?&?). repeat split; congruence. Qed.
Lemma same_at_refl f a : ps_data a = X -> same_at f a a. Proof. repeat split; auto. Qed.
Lemma pfit_loop_other fs : forall st ce pts vec f, ps_data st = X -> ~ In f fs -> same_at f st (fst (pfit_loop c st fs ce pts vec)).
Proof.
  induction fs as [|k fs IH]; intros st ce pts vec f HD NI; simpl; [now apply same_at_refl|].
  assert (NE : k <> f) by (intros ->; apply NI; now left).
  pose proof (pfit_one_other st k ce pts vec f HD NE) as H1. destruct (pfit_one c st k ce pts vec) as (st' & [u|e]); simpl in *; [|exact H1].
  eapply same_at_trans; [exact H1|]. apply IH; [apply H1|]. intros HI. apply NI. now right.
Qed.
Lemma pstep_other rt st k f : ps_data st = X -> ~ touches f k -> same_at f st (pstep c rt st k).
Proof.
  intros HD NT. destruct k as [fs cv pts vec|k xs het cv al vec]; simpl in *.
  - unfold pfit. destruct (prep_cent cv); [|now apply same_at_refl]. now apply pfit_loop_other.
  - unfold peval. destruct (prep_cent cv) as [ce|e] eqn:EC; [|now apply same_at_refl].
    destruct (prefit st k ce) as [[|]|e]; [|now apply same_at_refl|now apply same_at_refl].
    assert (H : same_at f st (fst (pfit c st [k] cv default_pts vec))).
    { unfold pfit. rewrite EC. apply pfit_loop_other; [exact HD|]. intros [->|[]]. now apply NT. }
    destruct (pfit c st [k] cv default_pts vec) as (st' & [u|e]); exact H.
Qed.
Lemma prun_other rt ks : forall st f, ps_data st = X -> (forall k, In k ks -> ~ touches f k) -> same_at f st (prun c rt st ks).
Proof.
  induction ks as [|k ks IH]; intros st f HD NT; simpl; [now apply same_at_refl|].
  pose proof (pstep_other rt st k f HD (NT k (or_introl eq_refl))) as H1.
  eapply same_at_trans; [exact H1|]. apply IH; [apply H1|]. intros; apply NT; now right.
Qed.
Lemma prun_data rt ks : ps_data (prun c rt (pfresh X) ks) = X.
Proof.
  destruct (prun_dinv c X LIM (fun _ => True) rt ks (pfresh X) (fun _ _ => I) (dinv_fresh c X (fun _ => True))) as (T & HD & HT & _).
  rewrite HD. apply within_all; [exact INL|]. intros f Hf. now apply HT.
Qed.
(** eval only reads the data and the entries of its feature *)
Lemma peval_local rt f s1 s2 xs het cv al vec : same_at f s1 s2 ->
  snd (peval c rt s1 f xs het cv al vec) = snd (peval c rt s2 f xs het cv al vec).
Proof.
  intros (D1 & D2 & EN & EA & EF). unfold peval. destruct (prep_cent cv) as [ce|e] eqn:EC; [|reflexivity].
  assert (EP : prefit s1 f ce = prefit s2 f ce). { unfold prefit. now rewrite D1, D2, EF, EA. }
  assert (PF : forall t1 t2, ps_data t1 = ps_data t2 -> ps_norm t1 f = ps_norm t2 f ->
     peval_fitted c rt t1 f xs het ce al vec = peval_fitted c rt t2 f xs het ce al vec).
  { intros t1 t2 Ht Hn. unfold peval_fitted. now rewrite Ht, Hn. }
  rewrite EP. destruct (prefit s2 f ce) as [[|]|e]; [|simpl; apply PF; congruence|reflexivity].
  unfold pfit. rewrite EC. simpl. unfold pfit_one. rewrite D1, D2.
  destruct (pfit_feature c X f ce default_pts vec) as (X' & [n|e]); simpl; [|reflexivity].
  apply PF; simpl; [reflexivity|]. now rewrite !upd_same.
Qed.
End Local.

(** ** Additive models *)
(** [h] does not look at feature [s]. *)
Definition ignores (h : list Qc -> Qc) (s : nat) : Prop := forall r v, h (with_feature r s v) = h r.

Lemma nth_with_feature r s v : (s < length r)%nat -> (with_feature r s v)@s = v.
Proof. intros H. unfold with_feature. now apply list_set_nth_same. Qed.

Lemma mean_map_const {A} (k : Qc) (l : list A) : l <> [] -> mean (map (fun _ => k) l) = k.
Proof.
  intros NE. unfold mean. rewrite map_length.
  assert (E : sumq (map (fun _ : A => k) l) = qn (length l) * k).
  { clear NE. induction l as [|a l IH]; simpl; [rewrite qn_0; ring|]. rewrite IH, qn_S. ring. }
  rewrite E. field. apply qn_neq0. destruct l; [congruence|simpl; lia].
Qed.
Lemma variance_map_const {A} (k : Qc) (l : list A) : l <> [] -> variance (map (fun _ => k) l) = 0.
Proof.
  intros NE. unfold variance. rewrite (mean_map_const k l NE), map_map.
  rewrite (map_ext _ (fun _ => 0)) by (intros; ring). now apply mean_map_const.
Qed.
Lemma sumq_map_addc {A} (k : A -> Qc) c l : sumq (map (fun a => k a + c) l) = sumq (map k l) + qn (length l) * c.
Proof. induction l as [|a l IH]; simpl; [rewrite qn_0; ring|]. rewrite IH, qn_S. ring. Qed.
Lemma mean_add_const {A} (k : A -> Qc) c l : l <> [] -> mean (map (fun a => k a + c) l) = mean (map k l) + c.
Proof. intros NE. unfold mean. rewrite !map_length, sumq_map_addc. field. apply qn_neq0. destruct l; [congruence|simpl; lia]. Qed.

Section Additive.
Variables (a : Qc -> Qc) (h g : list Qc -> Qc) (s : nat) (lo hi : Qc) (n : nat).
Hypothesis ADD : forall r, g r = a r@s + h r.
Hypothesis IGN : ignores h s.
Hypothesis N1 : (1 <= n)%nat.

Lemma additive_value r x : (s < length r)%nat -> g (with_feature r s x) = a x + h r.
Proof. intros L. rewrite ADD, IGN, nth_with_feature by exact L. reflexivity. Qed.

Definition additive_shift (ce : cent) : Qc :=
  match ce with NoCent => 0 | ZeroStart => a lo | ZeroIntegral => mean (map a (linspace lo hi n)) end.
Lemma additive_centered Z xs ce : (forall r, In r Z -> (s < length r)%nat) -> ce <> NoCent ->
  centered (fun r x => g (with_feature r s x)) (shift (fun r x => g (with_feature r s x)) lo hi n ce) Z xs =
  map (fun x => map (fun _ => a x - additive_shift ce) Z) xs.
Proof.
  intros HL NC. unfold centered. apply map_ext. intros x. apply map_ext_in. intros r Hr. specialize (HL r Hr).
  rewrite additive_value by exact HL. destruct ce; [congruence| |]; simpl.
  - rewrite additive_value by exact HL. ring.
  - rewrite (map_ext _ (fun y => a y + h r)) by (intros y; now apply additive_value).
    rewrite mean_add_const; [ring|]. intros E. apply (f_equal (@length _)) in E. rewrite linspace_length in E. simpl in E. lia.
Qed.
End Additive.

(** ** n-dimensional variant *)
(** [r] with the features [fs] replaced by the values [vs], one after the other. *)
Fixpoint with_features (r : list Qc) (fs : list nat) (vs : list Qc) : list Qc :=
  match fs, vs with
  | f :: fs', v :: vs' => with_features (with_feature r f v) fs' vs'
  | _, _ => r
  end.
Lemma with_features_length fs : forall r vs, length (with_features r fs vs) = length r.
Proof. induction fs as [|f fs IH]; intros r [|v vs]; simpl; auto. rewrite IH. apply list_set_length. Qed.
Lemma with_features_other fs : forall r vs k, ~ In k fs -> (with_features r fs vs)@k = r@k.
Proof.
  induction fs as [|f fs IH]; intros r [|v vs] k NI; simpl; auto. rewrite IH by (intros H; apply NI; now right).
  unfold with_feature. apply list_set_nth_other. intros ->. apply NI. now left.
Qed.
Lemma with_features_set fs : forall r vs j, NoDup fs -> length vs = length fs -> (j < length fs)%nat -> (nth j fs 0 < length r)%nat ->
  (with_features r fs vs)@(nth j fs 0%nat) = vs@j.
Proof.
  induction fs as [|f fs IH]; intros r [|v vs] j ND L Hj Hr; simpl in *; try lia. inversion ND; subst.
  destruct j as [|j]; simpl in *.
  - rewrite with_features_other by assumption. now apply list_set_nth_same.
  - apply IH; auto; try lia. unfold with_feature. now rewrite list_set_length.
Qed.

Lemma assign_tensor_map d f (F : list Qc -> list Qc -> list Qc) (k : list Qc -> Qc) Z (xs : Mat) :
  assign_tensor d f (map k xs) (map (fun x => map (F x) Z) xs) = map (fun x => map (fun r => list_set (F x r) f (store d (k x))) Z) xs.
Proof.
  unfold assign_tensor. induction xs as [|x xs IH]; [reflexivity|]. cbn [map combine fst snd]. rewrite IH. f_equal. unfold assign_col. now rewrite map_map.
Qed.

Lemma tensor_map X (xs : Mat) : tensor X (length xs) = map (fun x => map (fun r => r) (rows X)) xs.
Proof. unfold tensor. induction xs as [|x xs IH]; simpl; [reflexivity|]. rewrite IH, map_id. reflexivity. Qed.

Lemma skipn_cons_nth (x : list Qc) j : (j < length x)%nat -> skipn j x = x@j :: skipn (S j) x.
Proof. revert x. induction j as [|j IH]; intros [|a x] H; simpl in H; try lia; [reflexivity|]. apply (IH x). lia. Qed.

Lemma assign_features_eq X xs fs : dt X = Float64 -> (forall f, In f fs -> (f < dim X)%nat) ->
  forall j F, (forall x, In x xs -> length x = (j + length fs)%nat) ->
  assign_features X xs fs j (map (fun x => map (F x) (rows X)) xs) =
    Ok (map (fun x => map (fun r => with_features (F x r) fs (skipn j x)) (rows X)) xs).
Proof.
  intros DT. induction fs as [|f fs IH]; intros HF j F HL; simpl.
  - f_equal.
  - rewrite (proj2 (Nat.ltb_lt _ _) (HF f (or_introl eq_refl))).
    rewrite (assign_tensor_map (dt X) f F (fun r => nth j r 0) (rows X) xs).
    rewrite (IH (fun k Hk => HF k (or_intror Hk)) (S j) (fun x r => list_set (F x r) f (store (dt X) (nth j x 0)))).
    + f_equal. apply map_ext_in. intros x Hx. apply map_ext. intros r. rewrite (skipn_cons_nth x j).
      * rewrite DT. reflexivity.
      * specialize (HL x Hx). simpl in HL. lia.
    + intros x Hx. specialize (HL x Hx). simpl in HL. lia.
Qed.

Lemma pdp_nd_matrix_eq g X xs w fs : dt X = Float64 -> length fs = w -> (forall x, In x xs -> length x = w) -> (forall f, In f fs -> (f < dim X)%nat) ->
  pdp_nd_matrix (CPred (map g)) X xs w fs = Ok (map (fun x => map (fun r => g (with_features r fs x)) (rows X)) xs).
Proof.
  intros DT LF LX HF. unfold pdp_nd_matrix. rewrite (proj2 (Nat.eqb_eq _ _) LF). unfold assert_, bind at 1.
  rewrite tensor_map. rewrite (assign_features_eq X xs fs DT HF 0 (fun _ r => r)) by (intros x Hx; rewrite LX; auto).
  unfold bind. simpl skipn. rewrite concat_map, map_map.
  replace (length xs) with (length (map (fun x => map g (map (fun r => with_features r fs x) (rows X))) xs)) by apply map_length.
  rewrite reshape2_concat.
  - f_equal. apply map_ext. intros x. now rewrite map_map.
  - intros r Hr. apply in_map_iff in Hr as (x & <- & _). now rewrite !map_length.
Qed.

Lemma mapM_concat_length {A} (rs : list (list A)) k n : length rs = n -> (forall r, In r rs -> length r = k) -> length (concat rs) = (n * k)%nat.
Proof. intros <- H. now apply concat_length_uniform. Qed.

Lemma pdp_nd_jac_raises G X xs w fs : length fs = w -> wf_data X -> dt X = Float64 -> (forall x, In x xs -> length x = w) -> (forall f, In f fs -> (f < dim X)%nat) ->
  (forall r, length r = dim X -> length (G r) = dim X) -> w <> 1%nat -> xs <> [] -> rows X <> [] ->
  pdp_nd_vectorized (CJac (map G)) X xs w fs = Raise ValueError.
Proof.
  intros LF W DT LX HF HG W1 NX NR. unfold pdp_nd_vectorized, pdp_nd_matrix. rewrite (proj2 (Nat.eqb_eq _ _) LF). unfold assert_, bind at 1.
  rewrite tensor_map. rewrite (assign_features_eq X xs fs DT HF 0 (fun _ r => r)) by (intros x Hx; rewrite LX; auto).
  unfold bind at 1. set (t := map _ xs).
  assert (Ht : forall r, In r (concat t) -> length r = dim X).
  { intros r Hr. apply in_concat in Hr as (Z & HZ & Hr). unfold t in HZ. apply in_map_iff in HZ as (x & <- & _).
    apply in_map_iff in Hr as (r0 & <- & H0). rewrite with_features_length. now apply W. }
  assert (Lt : length (concat t) = (length xs * length (rows X))%nat).
  { rewrite (concat_length_uniform t (length (rows X))); [unfold t; now rewrite map_length|]. intros r Hr. unfold t in Hr. apply in_map_iff in Hr as (x & <- & _). apply map_length. }
  rewrite (mapM_ok _ (fun r => map (fun f => nth f r 0) fs)).
  2:{ intros r Hr. apply in_map_iff in Hr as (r0 & <- & H0). apply (mapM_ok (getn (G r0)) (fun f => nth f (G r0) 0)). intros f Hf. apply getn_ok. rewrite HG; auto. }
  unfold bind at 1 2. unfold reshape2.
  assert (E : length (concat (map (fun r => map (fun f => nth f r 0) fs) (map G (concat t)))) = (length xs * length (rows X) * w)%nat).
  { apply mapM_concat_length; [now rewrite !map_length|]. intros r Hr. apply in_map_iff in Hr as (r0 & <- & _). now rewrite map_length. }
  rewrite E. replace (Nat.eqb _ _) with false; [reflexivity|]. symmetry. apply Nat.eqb_neq.
  assert (0 < length xs)%nat by (destruct xs; [congruence|simpl; lia]). assert (0 < length (rows X))%nat by (destruct (rows X); [congruence|simpl; lia]).
  assert (0 < length xs * length (rows X))%nat by nia. nia.
Qed.
