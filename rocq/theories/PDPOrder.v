(** PDPOrder: two PDP/DerPDP objects on the same instances in two orders, through the same history of calls. *)
From Verif Require Import Base Numpy Spec NumpyFacts Utils UtilsProofs Helpers HelpersProofs Integrate GlobalALE GlobalPDP PDPProofs PDPFacts OrderProofs RegOrder.
Open Scope Qc_scope.
Open Scope list_scope.

Lemma mean_perm a b : Permutation a b -> mean a = mean b.
Proof. intros P. unfold mean. now rewrite (sumq_perm _ _ P), (Permutation_length P). Qed.
Lemma variance_perm a b : Permutation a b -> variance a = variance b.
Proof. intros P. unfold variance. rewrite (mean_perm _ _ P). apply mean_perm. now apply Permutation_map. Qed.
Lemma np_mean_perm a b : Permutation a b -> np_mean a = np_mean b.
Proof.
  intros P. destruct a as [|x a]; [now rewrite (Permutation_nil P)|]. destruct b as [|y b]; [symmetry in P; now apply Permutation_nil in P|].
  rewrite !np_mean_some by discriminate. now rewrite (mean_perm _ _ P).
Qed.
Lemma np_var_perm a b : Permutation a b -> np_var a = np_var b.
Proof.
  intros P. destruct a as [|x a]; [now rewrite (Permutation_nil P)|]. destruct b as [|y b]; [symmetry in P; now apply Permutation_nil in P|].
  rewrite !np_var_some by discriminate. now rewrite (variance_perm _ _ P).
Qed.
Lemma filter_same_length {A} (p : A -> bool) l : length (filter p l) = length l -> filter p l = l.
Proof.
  induction l as [|a l IH]; simpl; [reflexivity|]. destruct (p a); simpl; intros H; [f_equal; apply IH; lia|].
  pose proof (filter_length_le p l). lia.
Qed.
Lemma perm_single {A} (a : A) l : Permutation [a] l -> l = [a].
Proof. intros P. now apply Permutation_length_1_inv. Qed.

Definition mrel (M M' : Mat) : Prop := Forall2 (@Permutation Qc) M M'.
(** The constants stored for a feature: one per instance of the data at the time of the fit, of which the present instances are a part; or a scalar. *)
Definition nrel (Z Z' : Mat) (n n' : list Qc) : Prop :=
  (n = n' /\ length n = 1%nat) \/
  exists (u : list Qc -> Qc) (W W' : Mat) p, Permutation W W' /\ n = map u W /\ n' = map u W' /\ Z = filter p W /\ Z' = filter p W'.
Lemma nrel_filter q Z Z' n n' : nrel Z Z' n n' -> nrel (filter q Z) (filter q Z') n n'.
Proof.
  intros [H|(u & W & W' & p & P & E & E' & EZ & EZ')]; [now left|right]. exists u, W, W', (fun a => p a && q a). subst. rewrite !filter_filter. auto.
Qed.

Lemma vzip_single a b : vzip Qcminus a [b] = Ok (map (fun u => u - b) a).
Proof. unfold vzip. destruct a as [|x [|y a]]; reflexivity. Qed.
Lemma vzip_one a b : vzip Qcminus [a] b = Ok (map (fun u => a - u) b).
Proof. unfold vzip. destruct b as [|x [|y b]]; reflexivity. Qed.
Lemma rows_minus (h : list Qc -> list Qc) (M : Mat) n : (forall r, In r M -> vzip Qcminus r n = Ok (h r)) -> mapM (fun r => vzip Qcminus r n) M = Ok (map h M).
Proof. intros H. apply mapM_ok. exact H. Qed.
Lemma forall2_ice (v w : list Qc -> Qc -> Qc) (Z Z' : Mat) xs : Permutation Z Z' -> mrel (ice_matrix v Z xs) (ice_matrix v Z' xs).
Proof. intros P. unfold ice_matrix. induction xs as [|x xs IH]; constructor; [now apply Permutation_map|exact IH]. Qed.

Lemma sub_norm_rel v Z Z' xs n n' : Permutation Z Z' -> nrel Z Z' n n' ->
  rrel mrel (sub_norm (length Z) (ice_matrix v Z xs) n) (sub_norm (length Z') (ice_matrix v Z' xs) n').
Proof.
  intros P N.
  assert (W : forall Z0, width (length Z0) (ice_matrix v Z0 xs) = length Z0) by (intros; destruct xs; [reflexivity|simpl; apply map_length]).
  assert (LZ := Permutation_length P).
  assert (LN : length n = length n').
  { destruct N as [(-> & _)|(u & W0 & W1 & p & PW & -> & -> & _)]; [reflexivity|]. rewrite !map_length. now apply Permutation_length. }
  unfold sub_norm. rewrite !W, <- LZ, <- LN.
  destruct (Nat.eqb (length Z) (length n) || Nat.eqb (length Z) 1 || Nat.eqb (length n) 1)%bool eqn:C; [|reflexivity].
  destruct (Nat.eqb (length n) 1) eqn:C1.
  - (* a scalar *)
    apply Nat.eqb_eq in C1. destruct n as [|b [|? ?]]; try discriminate.
    assert (EN : n' = [b]).
    { destruct N as [(<- & _)|(u & W0 & W1 & p & PW & E & E' & _)]; [reflexivity|]. destruct W0 as [|w [|? ?]]; try discriminate. apply perm_single in PW. subst. exact (eq_sym E). }
    subst n'. rewrite !(rows_minus (map (fun u => u - b))) by (intros; apply vzip_single). simpl. unfold ice_matrix. rewrite !map_map.
    induction xs as [|x xs IH]; constructor; [now apply Permutation_map, Permutation_map|]. apply IH; try assumption. intros Z0. destruct xs; [reflexivity|simpl; apply map_length].
  - destruct N as [(_ & L1)|(u & W0 & W1 & p & PW & E & E' & EZ & EZ')]; [now rewrite L1 in C1|].
    destruct (Nat.eqb (length Z) (length n)) eqn:C2.
    + apply Nat.eqb_eq in C2. rewrite E, map_length in C2.
      assert (Z = W0) by (rewrite EZ in *; now apply filter_same_length).
      assert (Z' = W1) by (rewrite EZ' in *; apply filter_same_length; rewrite <- LZ, C2; now apply Permutation_length).
      assert (A : forall V, mapM (fun r => vzip Qcminus r (map u V)) (ice_matrix v V xs) = Ok (centered v u V xs)).
      { intros V. unfold ice_matrix, centered. clear. induction xs as [|x xs IH]; [reflexivity|]. cbn [map mapM]. rewrite vzip_map. cbn [bind]. now rewrite IH. }
      rewrite E, E'. clear EZ EZ'. subst W0 W1. rewrite !A. simpl. unfold centered. clear -P. induction xs as [|x xs IH]; constructor; [now apply Permutation_map|exact IH].
    + destruct (Nat.eqb (length Z) 1) eqn:C3; [|discriminate]. apply Nat.eqb_eq in C3. destruct Z as [|z [|? ?]]; try discriminate.
      apply perm_single in P. rewrite P in *. unfold ice_matrix. cbn [map].
      assert (A : forall m, mapM (fun r => vzip Qcminus r m) (map (fun x => [v z x]) xs) = Ok (map (fun x => map (fun a => v z x - a) m) xs)).
      { intros m. clear. induction xs as [|x xs IH]; [reflexivity|]. cbn [map mapM]. rewrite vzip_one. cbn [bind]. now rewrite IH. }
      rewrite !A, E, E'. simpl. clear -PW. induction xs as [|x xs IH]; constructor; [now apply Permutation_map, Permutation_map|exact IH].
Qed.
Lemma means_rel M M' : mrel M M' -> row_means M = row_means M'.
Proof. intros H. induction H as [|a b M M' Hab H IH]; [reflexivity|]. unfold row_means in *. cbn [map]. now rewrite (np_mean_perm _ _ Hab), IH. Qed.
Lemma stds_rel rt M M' : mrel M M' -> row_stds rt M = row_stds rt M'.
Proof. intros H. induction H as [|a b M M' Hab H IH]; [reflexivity|]. unfold row_stds in *. cbn [map]. now rewrite (np_var_perm _ _ Hab), IH. Qed.

(** The result of eval: the same, except that the columns of the matrix of curves follow the order of the instances. *)
Definition out_rel (o o' : pout) : Prop := match o, o' with OAll M, OAll M' => mrel M M' | OAll _, _ | _, OAll _ => False | _, _ => o = o' end.

Section Two.
Variables (c : pconfig) (g : list Qc -> Qc) (G : list Qc -> list Qc) (d : dtype) (n : nat).
Hypothesis RO : row_object c n g G.
Definition goodrow (Z : Mat) : Prop := forall r, In r Z -> length r = n.
Record prel (st st' : pstate) : Prop := {
  pr_data : exists Z Z', ps_data st = mkData d n Z /\ ps_data st' = mkData d n Z' /\ goodrow Z /\ Permutation Z Z' /\
    forall f, match ps_norm st f, ps_norm st' f with Some a, Some b => nrel Z Z' a b | None, None => True | _, _ => False end;
  pr_args : forall f, ps_args st f = ps_args st' f; pr_fitted : forall f, ps_fitted st f = ps_fitted st' f }.

Lemma prel_fresh Z Z' : goodrow Z -> Permutation Z Z' -> prel (pfresh (mkData d n Z)) (pfresh (mkData d n Z')).
Proof. intros HG P. constructor; [exists Z, Z'; simpl; auto 10| |]; reflexivity. Qed.
Lemma goodrow_perm Z Z' : goodrow Z -> Permutation Z Z' -> goodrow Z'.
Proof. intros H P r Hr. apply H. eapply Permutation_in; [symmetry; exact P|exact Hr]. Qed.
Lemma predict_cases vec xs f : (f < n)%nat -> (forall Z, predict c vec (mkData d n Z) xs f = Raise ValueError) \/
  (forall Z, goodrow Z -> predict c vec (mkData d n Z) xs f = Ok (ice_matrix (pvalue (p_kind c) d g G f) Z xs)).
Proof.
  intros F. destruct vec; [right|destruct xs as [|x xs]; [left|right]].
  - intros Z HZ. now rewrite (predict_eq c g G true (mkData d n Z) xs f RO HZ F (or_introl eq_refl)).
  - intros Z. unfold predict. destruct (p_kind c) as [|[j|]]; reflexivity.
  - intros Z HZ. now rewrite (predict_eq c g G false (mkData d n Z) (x :: xs) f RO HZ F ltac:(right; discriminate)).
Qed.
Lemma perm_filter2 p q (Z Z' : Mat) : Permutation Z Z' -> Permutation (filter q (filter p Z)) (filter q (filter p Z')).
Proof. intros P. now apply filter_permutation, filter_permutation. Qed.

Lemma pfit_feature_rel Z Z' f ce pts vec : goodrow Z -> Permutation Z Z' ->
  exists p, fst (pfit_feature c (mkData d n Z) f ce pts vec) = mkData d n (filter p Z) /\ fst (pfit_feature c (mkData d n Z') f ce pts vec) = mkData d n (filter p Z') /\
    rrel (nrel (filter p Z) (filter p Z')) (snd (pfit_feature c (mkData d n Z) f ce pts vec)) (snd (pfit_feature c (mkData d n Z') f ce pts vec)).
Proof.
  intros HZ P. assert (ALL : forall W : Mat, filter (fun _ => true) W = W) by (intros; now apply filter_all).
  unfold pfit_feature. cbn [dim]. destruct (Nat.ltb f n) eqn:EF; [|exists (fun _ => true); cbn [fst snd]; rewrite !ALL; simpl; auto]. apply Nat.ltb_lt in EF.
  match goal with |- context [match ?l with Ok _ => _ | Raise _ => _ end] => destruct l as [[lo hi]|e] end; [|exists (fun _ => true); cbn [fst snd]; rewrite !ALL; simpl; auto].
  unfold drop_points_outside. cbn [dt dim rows fst snd]. rewrite !filter_filter. set (p := fun a : list Qc => (lo <=? nth f a 0) && (nth f a 0 <=? hi)). exists p. split; [reflexivity|]. split; [reflexivity|].
  assert (HF : forall W, goodrow W -> goodrow (filter p W)) by (intros W HW r Hr; apply HW; apply filter_In in Hr; apply Hr).
  pose proof (goodrow_perm _ _ HZ P) as HZ'. pose proof (filter_permutation p _ _ P) as PP.
  assert (NR : forall u, nrel (filter p Z) (filter p Z') (map u (filter p Z)) (map u (filter p Z'))).
  { intros u. right. exists u, (filter p Z), (filter p Z'), (fun _ => true). rewrite !ALL. auto. }
  destruct ce.
  - left. auto.
  - destruct (predict_cases vec [lo] f EF) as [E|E].
    + rewrite !E. reflexivity.
    + rewrite !E by auto. apply (NR (fun r => pvalue (p_kind c) d g G f r lo)).
  - apply rrel_same. intros k. destruct (predict_cases vec (linspace lo hi k) f EF) as [E|E].
    + rewrite !E. reflexivity.
    + rewrite !E by auto. cbn [bind]. destruct k as [|k]; [reflexivity|].
      assert (NE : linspace lo hi (S k) <> []) by (intros K; apply (f_equal (@length _)) in K; rewrite linspace_length in K; discriminate).
      rewrite !col_means_eq by exact NE. apply NR.
Qed.
Definition pstep_rel {A} (R : A -> A -> Prop) (a a' : pstate * res A) : Prop := prel (fst a) (fst a') /\ rrel R (snd a) (snd a').

Lemma pfit_one_rel st st' f ce pts vec : prel st st' -> pstep_rel eq (pfit_one c st f ce pts vec) (pfit_one c st' f ce pts vec).
Proof.
  intros [(Z & Z' & D & D' & HZ & P & N) HA HF]. unfold pfit_one. rewrite D, D'. destruct (pfit_feature_rel Z Z' f ce pts vec HZ P) as (p & E1 & E2 & R).
  destruct (pfit_feature c (mkData d n Z) f ce pts vec) as [X1 r1], (pfit_feature c (mkData d n Z') f ce pts vec) as [X2 r2]. cbn [fst snd] in *. subst X1 X2.
  assert (GF : goodrow (filter p Z)) by (intros r Hr; apply HZ; apply filter_In in Hr; apply Hr). pose proof (filter_permutation p _ _ P) as PP.
  assert (NF : forall k, match ps_norm st k, ps_norm st' k with Some a, Some b => nrel (filter p Z) (filter p Z') a b | None, None => True | _, _ => False end).
  { intros k. specialize (N k). destruct (ps_norm st k), (ps_norm st' k); try contradiction; [now apply nrel_filter|exact I]. }
  destruct r1 as [m1|e1], r2 as [m2|e2]; simpl in R; try contradiction.
  - split; [|reflexivity]. constructor; cbn [fst ps_data ps_norm ps_args ps_fitted].
    + exists (filter p Z), (filter p Z'). split; [reflexivity|]. split; [reflexivity|]. split; [exact GF|]. split; [exact PP|]. intros k. unfold upd. destruct (Nat.eqb k f); [exact R|apply NF].
    + intros k. unfold upd. destruct (Nat.eqb k f); [reflexivity|apply HA].
    + intros k. unfold upd. destruct (Nat.eqb k f); [reflexivity|apply HF].
  - split; [|exact R]. constructor; cbn [fst ps_data ps_norm ps_args ps_fitted]; auto. exists (filter p Z), (filter p Z'). auto 10.
Qed.
Lemma pfit_loop_rel fs ce pts vec : forall st st', prel st st' -> pstep_rel eq (pfit_loop c st fs ce pts vec) (pfit_loop c st' fs ce pts vec).
Proof.
  induction fs as [|f fs IH]; intros st st' H; [split; [exact H|reflexivity]|]. cbn [pfit_loop]. destruct (pfit_one_rel st st' f ce pts vec H) as [K1 K2].
  destruct (pfit_one c st f ce pts vec) as [s1 r1], (pfit_one c st' f ce pts vec) as [s2 r2]. cbn [fst snd] in *. apply rrel_eq in K2. subst. destruct r2; [now apply IH|split; [exact K1|reflexivity]].
Qed.
Lemma pfit_rel st st' fs cv pts vec : prel st st' -> pstep_rel eq (pfit c st fs cv pts vec) (pfit c st' fs cv pts vec).
Proof. intros H. unfold pfit. destruct (prep_cent cv); [now apply pfit_loop_rel|split; [exact H|reflexivity]]. Qed.
Lemma peval_fitted_rel rt st st' f xs het ce al vec : prel st st' -> (f < n)%nat -> rrel out_rel (peval_fitted c rt st f xs het ce al vec) (peval_fitted c rt st' f xs het ce al vec).
Proof.
  intros [(Z & Z' & D & D' & HZ & P & N) HA HF] F. unfold peval_fitted. rewrite D, D'. apply rrel_same. intros lo. apply rrel_same. intros hi. apply rrel_same. intros _. cbn [rows].
  destruct (predict_cases vec xs f F) as [E|E]; [rewrite !E; reflexivity|]. rewrite !E by (auto; now apply (goodrow_perm Z)). cbn [bind].
  apply (rrel_bind mrel).
  - specialize (N f). destruct ce; [now apply forall2_ice| |]; destruct (ps_norm st f), (ps_norm st' f); try contradiction; try reflexivity; now apply sub_norm_rel.
  - intros M M' R. simpl. destruct al; [exact R|]. rewrite (means_rel _ _ R). destruct het; [|reflexivity]. simpl. now rewrite (stds_rel rt _ _ R).
Qed.
Lemma peval_rel rt st st' f xs het cv al vec : prel st st' -> pstep_rel out_rel (peval c rt st f xs het cv al vec) (peval c rt st' f xs het cv al vec).
Proof.
  intros H. unfold peval. destruct (prep_cent cv) as [ce|e]; [|split; [exact H|reflexivity]].
  assert (EP : prefit st f ce = prefit st' f ce).
  { unfold prefit. destruct H as [(Z & Z' & -> & -> & _) HA HF]. cbn [dim]. now rewrite HF, HA. }
  rewrite <- EP. destruct (prefit st f ce) as [u|e] eqn:E; [|split; [exact H|reflexivity]].
  assert (F : (f < n)%nat).
  { unfold prefit in E. destruct H as [(Z & Z' & D & _) _ _]. rewrite D in E. cbn [dim] in E. destruct (Nat.ltb f n) eqn:EF; [now apply Nat.ltb_lt|discriminate]. }
  destruct u; [|split; [exact H|now apply peval_fitted_rel]].
  destruct (pfit_rel st st' [f] cv default_pts vec H) as [K1 K2]. destruct (pfit c st [f] cv default_pts vec) as [s1 r1], (pfit c st' [f] cv default_pts vec) as [s2 r2]. cbn [fst snd] in *. apply rrel_eq in K2. subst.
  destruct r2; [split; [exact K1|now apply peval_fitted_rel]|split; [exact K1|reflexivity]].
Qed.
Lemma prun_rel rt ks : forall st st', prel st st' -> prel (prun c rt st ks) (prun c rt st' ks).
Proof.
  induction ks as [|k ks IH]; intros st st' H; [exact H|]. cbn [prun fold_left]. apply IH. destruct k; cbn [pstep]; [now apply pfit_rel|now apply peval_rel].
Qed.
End Two.
