(** Permuting the instances (C74): numpy primitives, statistics of the bins, binning algorithms, _fit_feature. *)
From Verif Require Import Base Numpy Spec NumpyFacts Utils UtilsProofs Helpers Binning GlobalALE ALEState ALEHist.
Open Scope Qc_scope.
Open Scope list_scope.

(** ** Primitives *)
Lemma filter_permutation {A} (p : A -> bool) a b : Permutation a b -> Permutation (filter p a) (filter p b).
Proof.
  induction 1; simpl; auto.
  - destruct (p x); auto.
  - destruct (p x), (p y); auto. constructor.
  - eapply perm_trans; eauto.
Qed.
Lemma count_permutation {A} (p : A -> bool) a b : Permutation a b -> count p a = count p b.
Proof. intros P. unfold count. now apply Permutation_length, filter_permutation. Qed.
Lemma existsb_permutation {A} (p : A -> bool) a b : Permutation a b -> existsb p a = existsb p b.
Proof. induction 1; simpl; [reflexivity|congruence| |congruence]. destruct (p x), (p y); reflexivity. Qed.
Lemma forallb_permutation {A} (p : A -> bool) a b : Permutation a b -> forallb p a = forallb p b.
Proof. induction 1; simpl; [reflexivity|congruence| |congruence]. destruct (p x), (p y); reflexivity. Qed.
Lemma zmax0_permutation a b : Permutation a b -> zmax0 a = zmax0 b.
Proof. unfold zmax0. induction 1; simpl; lia. Qed.
Lemma lift2_plus_comm3 a b c : lift2 Qcplus a (lift2 Qcplus b c) = lift2 Qcplus b (lift2 Qcplus a c).
Proof. destruct a, b, c; simpl; try reflexivity. f_equal. ring. Qed.
Lemma nsum_permutation a b : Permutation a b -> nsum a = nsum b.
Proof. unfold nsum. induction 1; simpl; [reflexivity|congruence|apply lift2_plus_comm3|congruence]. Qed.
Lemma unique_permutation a b : Permutation a b -> unique a = unique b.
Proof. intros P. apply unique_ext. intros x. split; apply Permutation_in; [exact P|now symmetry]. Qed.
Lemma np_min_permutation a b : Permutation a b -> np_min a = np_min b.
Proof.
  intros P. destruct a as [|x a]; [now rewrite (Permutation_nil P)|].
  destruct (np_min_spec (x :: a) ltac:(discriminate)) as (m & E & I & L).
  destruct (np_min_spec b) as (m' & E' & I' & L'). { intros ->. now apply Permutation_sym, Permutation_nil in P. }
  rewrite E, E'. f_equal. apply Qcle_antisym; [apply L; exact (Permutation_in m' (Permutation_sym P) I')|apply L'; exact (Permutation_in m P I)].
Qed.
Lemma np_max_permutation a b : Permutation a b -> np_max a = np_max b.
Proof.
  intros P. destruct a as [|x a]; [now rewrite (Permutation_nil P)|].
  destruct (np_max_spec (x :: a) ltac:(discriminate)) as (m & E & I & L).
  destruct (np_max_spec b) as (m' & E' & I' & L'). { intros ->. now apply Permutation_sym, Permutation_nil in P. }
  rewrite E, E'. f_equal. apply Qcle_antisym; [apply L'; exact (Permutation_in m P I)|apply L; exact (Permutation_in m' (Permutation_sym P) I')].
Qed.
Lemma np_var_permutation a b : Permutation a b -> np_var a = np_var b.
Proof.
  intros P. destruct a as [|x a]; [now rewrite (Permutation_nil P)|]. destruct b as [|y b]; [symmetry in P; now apply Permutation_nil in P|].
  unfold np_var. cbv zeta. rewrite (sumq_perm _ _ P), (Permutation_length P). f_equal. f_equal. apply sumq_perm. now apply Permutation_map.
Qed.
(** a pass that can only raise one exception *)
Lemma mapM_uniform {A B} (f : A -> res B) (d : B) (e0 : exn) l l' : (forall a e, f a = Raise e -> e = e0) -> Permutation l l' ->
  (mapM f l = Raise e0 /\ mapM f l' = Raise e0) \/ (exists g, mapM f l = Ok (map g l) /\ mapM f l' = Ok (map g l')).
Proof.
  intros U P. set (g := fun a => match f a with Ok b => b | Raise _ => d end).
  assert (D : forall k, (mapM f k = Raise e0 /\ existsb (fun a => match f a with Ok _ => false | Raise _ => true end) k = true) \/
                        (mapM f k = Ok (map g k) /\ existsb (fun a => match f a with Ok _ => false | Raise _ => true end) k = false)).
  { induction k as [|a k IH]; [right; split; reflexivity|]. simpl. unfold g at 1. destruct (f a) as [v|e] eqn:E.
    - simpl. destruct IH as [(-> & ->)|(-> & ->)]; [left|right]; split; reflexivity.
    - left. simpl. rewrite (U a e E). split; reflexivity. }
  destruct (D l) as [(E1 & F1)|(E1 & F1)], (D l') as [(E2 & F2)|(E2 & F2)]; rewrite (existsb_permutation _ _ _ P) in F1; try congruence; [left; auto|right; eauto].
Qed.
Lemma getz_index {A} (l : list A) z e : getz l z = Raise e -> e = IndexError.
Proof. unfold getz. cbv zeta. destruct (Z.ltb _ 0); [congruence|]. destruct (nth_error _ _); congruence. Qed.
Lemma getn_index {A} (l : list A) z e : getn l z = Raise e -> e = IndexError.
Proof. unfold getn. destruct (nth_error l z); congruence. Qed.

(** ** Bin statistics *)
Lemma digitize_uniform l : (exists e, forall xs, digitize xs l = Raise e) \/ (exists ix, forall xs, digitize xs l = Ok (map ix xs)).
Proof. unfold digitize. destruct (mono_incr l); [right; eauto|]. destruct (mono_decr l); [right; eauto|left; eauto]. Qed.
Lemma bin_indices_uniform l : (exists e, forall xs, bin_indices xs l = Raise e) \/ (exists ix, forall xs, bin_indices xs l = Ok (map ix xs)).
Proof.
  unfold bin_indices. destruct l as [|a l]; [left; eauto|]. destruct (digitize_uniform (add_last (a :: l) EPS)) as [(e & H)|(ix & H)].
  - left. exists e. intros xs. now rewrite H.
  - right. eexists. intros xs. rewrite H. unfold bind. rewrite map_map. reflexivity.
Qed.
Lemma bincount_permutation {T} (a : T -> Z) n Q Q' : Permutation Q Q' -> bincount (map a Q) n = bincount (map a Q') n.
Proof.
  intros P. assert (PA := Permutation_map a P). unfold bincount, bincount_len. rewrite (existsb_permutation _ _ _ PA), (zmax0_permutation _ _ PA).
  destruct (existsb _ _); [reflexivity|]. f_equal. apply map_ext. intros k. now apply count_permutation.
Qed.
Lemma combine_two {T A B} (a : T -> A) (b : T -> B) Q : combine (map a Q) (map b Q) = map (fun q => (a q, b q)) Q.
Proof. induction Q as [|q Q IH]; simpl; congruence. Qed.
Lemma bincount_w_permutation {T} (a : T -> Z) (b : T -> NQ) n Q Q' : Permutation Q Q' -> bincount_w (map a Q) (map b Q) n = bincount_w (map a Q') (map b Q') n.
Proof.
  intros P. assert (PA := Permutation_map a P). unfold bincount_w, bincount_len. rewrite !map_length, !Nat.eqb_refl. cbn [negb].
  rewrite (existsb_permutation _ _ _ PA), (zmax0_permutation _ _ PA). destruct (existsb _ _); [reflexivity|]. f_equal. apply map_ext. intros k.
  rewrite !combine_two. apply nsum_permutation, Permutation_map, filter_permutation, Permutation_map, P.
Qed.
Lemma ale_params_permutation {T} (a b : T -> Qc) l Q Q' : Permutation Q Q' ->
  compute_ale_params (map a Q) (map b Q) l = compute_ale_params (map a Q') (map b Q') l.
Proof.
  intros P. unfold compute_ale_params. cbv zeta. unfold compute_bin_effect, compute_bin_variance.
  destruct (bin_indices_uniform l) as [(e & H)|(ix & H)]; [now rewrite !H|]. rewrite !H. cbn [bind].
  rewrite !map_map. rewrite (bincount_w_permutation _ _ _ Q Q' P), (bincount_permutation _ _ Q Q' P).
  destruct (bincount_w _ _ _) as [agg|e]; [|reflexivity]. cbn [bind]. destruct (bincount _ _) as [ppb|e]; [|reflexivity]. cbn [bind].
  set (be := divide_where _ agg ppb).
  assert (PX : Permutation (map (fun x => ix (a x)) Q) (map (fun x => ix (a x)) Q')) by now apply Permutation_map.
  destruct (mapM_uniform (getz be) None IndexError _ _ (getz_index be) PX) as [(E1 & E2)|(m & E1 & E2)]; unfold takez; rewrite E1, E2; [reflexivity|].
  cbn [bind]. rewrite !map_map. rewrite !vzip_map. cbn [bind]. rewrite (bincount_w_permutation _ _ _ Q Q' P). reflexivity.
Qed.

(** ** Binning algorithms *)
Record b_same (b b' : binner) : Prop := {
  bs_lo : b_lo b = b_lo b'; bs_hi : b_hi b = b_hi b';
  bs_xs : Permutation (b_xs b) (b_xs b');
  bs_eff : length (b_eff b) = length (b_eff b');
  bs_in : forall s t, Permutation (filter_effects_in_bin (b_xs b) (b_eff b) s t) (filter_effects_in_bin (b_xs b') (b_eff b') s t) }.
Lemma b_same_pairs {T} (a e : T -> Qc) lo hi Q Q' : Permutation Q Q' -> b_same (mkB (map a Q) (map e Q) lo hi) (mkB (map a Q') (map e Q') lo hi).
Proof.
  intros P. constructor; cbn [b_lo b_hi b_xs b_eff]; auto; [now apply Permutation_map|now rewrite !map_length, (Permutation_length P)|].
  intros s t. unfold filter_effects_in_bin. rewrite !combine_two. apply Permutation_map, filter_permutation, Permutation_map, P.
Qed.
Lemma b_same_noeff lo hi x x' : Permutation x x' -> b_same (mkB x [] lo hi) (mkB x' [] lo hi).
Proof.
  intros P. constructor; cbn [b_lo b_hi b_xs b_eff]; auto. intros s t. unfold filter_effects_in_bin. 
  assert (E : forall y : list Qc, combine y (@nil Qc) = []) by (intros [|? ?]; reflexivity). now rewrite !E.
Qed.
Section Same.
Variables b b' : binner.
Hypothesis BS : b_same b b'.
Lemma same_len : length (b_xs b) = length (b_xs b'). Proof. apply Permutation_length, BS. Qed.
Lemma same_unique : unique (b_xs b) = unique (b_xs b'). Proof. apply unique_permutation, BS. Qed.
Lemma same_cost m d s t : bin_cost b m d s t = bin_cost b' m d s t.
Proof.
  unfold bin_cost. cbv zeta. pose proof (bs_in _ _ BS s t) as P. rewrite same_len, (Permutation_length P), (np_var_permutation _ _ P). reflexivity.
Qed.
Lemma same_valid mp s t : bin_valid b mp s t = bin_valid b' mp s t.
Proof. unfold bin_valid. destruct mp; [|reflexivity]. f_equal. apply Permutation_length. unfold filter_points_in_bin. apply filter_permutation, BS. Qed.
Lemma same_none mp : none_valid_binning b mp = none_valid_binning b' mp.
Proof. unfold none_valid_binning. now rewrite same_unique, same_len. Qed.
Lemma all_bins_ext f g l : (forall s t, f s t = g s t) -> all_bins f l = all_bins g l.
Proof. intros E. unfold all_bins. induction (combine l (tl l)) as [|p k IH]; simpl; [reflexivity|]. now rewrite E, IH. Qed.
Lemma same_cat mp cl : is_categorical b mp cl = is_categorical b' mp cl.
Proof.
  unfold is_categorical. cbv zeta. rewrite same_unique. destruct (Nat.leb _ cl); [|reflexivity]. destruct (cat_limits _) as [l|e]; [|reflexivity].
  cbn [bind]. now rewrite (all_bins_ext _ _ l (same_valid mp)).
Qed.
Lemma same_one m : only_one_bin_possible b m = only_one_bin_possible b' m.
Proof. unfold only_one_bin_possible. now rewrite (bs_lo _ _ BS), (bs_hi _ _ BS), (bs_eff _ _ BS). Qed.
Lemma same_close m d n l left i : close_bin b m d n l left i = close_bin b' m d n l left i.
Proof. unfold close_bin. cbv zeta. now rewrite !same_cost, !same_valid. Qed.
Lemma same_loop m d n l : forall todo i mg, greedy_loop b m d n l todo i mg = greedy_loop b' m d n l todo i mg.
Proof. induction todo as [|t IH]; intros i mg; [reflexivity|]. cbn [greedy_loop]. cbv zeta. now rewrite same_close, IH. Qed.
Lemma same_merge n d m : greedy_merge b n d m = greedy_merge b' n d m.
Proof.
  unfold greedy_merge. cbv zeta. rewrite (bs_lo _ _ BS), (bs_hi _ _ BS), same_loop.
  destruct (greedy_loop _ _ _ _ _ _ _ _) as [|x [|y r]]; [reflexivity|reflexivity|]. now rewrite same_valid.
Qed.
Lemma same_greedy n d mp cl : greedy_find b n d mp cl = greedy_find b' n d mp cl.
Proof.
  unfold greedy_find. rewrite same_none, same_cat. destruct (none_valid_binning b' mp) as [[|]|e]; cbn [bind]; try reflexivity.
  destruct (is_categorical b' mp cl) as [[l|]|e]; cbn [bind]; try reflexivity. destruct mp as [m|]; [|reflexivity].
  rewrite same_one, (bs_lo _ _ BS), (bs_hi _ _ BS), same_merge. reflexivity.
Qed.
Lemma dp_columns_ext c c' K : (forall i j, c i j = c' i j) -> forall n col acc, dp_columns c K n col acc = dp_columns c' K n col acc.
Proof.
  intros E. assert (D : forall prev, dp_column c K prev = dp_column c' K prev).
  { intros prev. unfold dp_column. cbv zeta. 
    assert (Q : forall next, map (fun before => lift2 Qcplus (nth before prev None) (c before next)) (seq 0 (K + 1)) = map (fun before => lift2 Qcplus (nth before prev None) (c' before next)) (seq 0 (K + 1))).
    { intros next. apply map_ext. intros bf. now rewrite E. }
    f_equal; f_equal; apply map_ext; intros next; now rewrite Q. }
  induction n as [|n IH]; intros col acc; [reflexivity|]. cbn [dp_columns]. cbv zeta. now rewrite D, IH.
Qed.
Lemma same_dp_limits m d K : dp_limits b m d K = dp_limits b' m d K.
Proof.
  assert (PE : forall i, position b K i = position b' K i) by (intros i; unfold position; now rewrite (bs_lo _ _ BS), (bs_hi _ _ BS)).
  assert (CE : forall i j, cost_of_move b m d K i j = cost_of_move b' m d K i j) by (intros i j; unfold cost_of_move; now rewrite same_cost, !PE).
  unfold dp_limits, dp_path. cbv zeta. rewrite (map_ext _ _ (CE 0%nat)), (dp_columns_ext _ _ K CE). now apply map_ext.
Qed.
Lemma same_dp n mp d cl : dp_find b n mp d cl = dp_find b' n mp d cl.
Proof.
  unfold dp_find. rewrite same_none, same_cat. destruct (none_valid_binning b' mp) as [[|]|e]; cbn [bind]; try reflexivity.
  destruct (is_categorical b' mp cl) as [[l|]|e]; cbn [bind]; try reflexivity. destruct mp as [m|]; [|reflexivity].
  rewrite same_one, (bs_lo _ _ BS), (bs_hi _ _ BS). destruct n as [|[|n]]; try reflexivity. now rewrite same_dp_limits.
Qed.
Lemma same_fixed n mp cl : fixed_find b n mp cl = fixed_find b' n mp cl.
Proof.
  unfold fixed_find. rewrite same_none, same_cat. destruct (none_valid_binning b' mp); cbn [bind]; [|reflexivity].
  destruct (is_categorical b' mp cl) as [[l|]|e]; cbn [bind]; try reflexivity. cbv zeta. rewrite (bs_lo _ _ BS), (bs_hi _ _ BS).
  destruct mp; [|reflexivity]. now rewrite (all_bins_ext _ _ _ (same_valid _)).
Qed.
Lemma same_find m : find_limits_b b m = find_limits_b b' m.
Proof. unfold find_limits_b. destruct m; auto using same_fixed, same_greedy, same_dp. now rewrite !same_fixed, !same_greedy, !same_dp. Qed.
End Same.

(** ** _fit_feature *)
Lemma col_permutation X Y f : Permutation X Y -> Permutation (col X f) (col Y f).
Proof. apply Permutation_map. Qed.
Lemma find_limits_same X Y (EX EY : option Mat) f al m : dim X = dim Y ->
  (forall lo hi, b_same (mkB (col (rows X) f) (match EX with Some e => col e f | None => [] end) lo hi) (mkB (col (rows Y) f) (match EY with Some e => col e f | None => [] end) lo hi)) ->
  find_limits X EX f al m = find_limits Y EY f al m.
Proof.
  intros D BS. destruct al as (mins, maxs).
  assert (Q : (b <- make_binner X EX f (Some (mins, maxs)) ;; find_limits_b b m) = (b <- make_binner Y EY f (Some (mins, maxs)) ;; find_limits_b b m)).
  { unfold make_binner, getcol. rewrite D. destruct (getn mins f) as [lo|e]; [|reflexivity]. cbn [bind]. destruct (getn maxs f) as [hi|e]; [|reflexivity]. cbn [bind].
    destruct (Nat.ltb f (dim Y)); [|reflexivity]. cbn [bind]. apply same_find, BS. }
  unfold find_limits. destruct m; try exact Q. destruct (_ || _)%bool; [exact Q|reflexivity].
Qed.
Lemma set_col_map X f (v : list Qc -> Qc) : set_col X f (map v (rows X)) = map (fun r => list_set r f (store (dt X) (v r))) (rows X).
Proof. unfold set_col. induction (rows X) as [|r k IH]; simpl; congruence. Qed.
(** compute_local_effects on permuted rows: the same exception, or one function of the row *)
Lemma local_effects_permutation X Y g l f : dt X = dt Y -> dim X = dim Y -> Permutation (rows X) (rows Y) ->
  fst (compute_local_effects X (map g) l f) = fst (compute_local_effects Y (map g) l f) /\
  ((exists e, snd (compute_local_effects X (map g) l f) = Raise e /\ snd (compute_local_effects Y (map g) l f) = Raise e) \/
   (exists h, snd (compute_local_effects X (map g) l f) = Ok (map h (rows X)) /\ snd (compute_local_effects Y (map g) l f) = Ok (map h (rows Y)))).
Proof.
  intros DT DM P. unfold compute_local_effects, getcol. rewrite <- DM. destruct (Nat.ltb f (dim X)); cbn [bind assert_ fst snd]; [|split; [reflexivity|left; eauto]].
  pose proof (col_permutation _ _ f P) as PC.
  rewrite (np_min_permutation _ _ PC), (np_max_permutation _ _ PC).
  destruct (getn l 0) as [l0|e]; cbn [bind assert_ fst snd]; [|split; [reflexivity|left; eauto]].
  destruct (np_min (col (rows Y) f)) as [mn|e]; cbn [bind assert_ fst snd]; [|split; [reflexivity|left; eauto]].
  destruct (l0 <=? mn); cbn [bind assert_ fst snd]; [|split; [reflexivity|left; eauto]].
  destruct (getz l (-1)) as [lk|e]; cbn [bind assert_ fst snd]; [|split; [reflexivity|left; eauto]].
  destruct (np_max (col (rows Y) f)) as [mx|e]; cbn [bind assert_ fst snd]; [|split; [reflexivity|left; eauto]].
  destruct (mx <=? lk); cbn [bind assert_ fst snd]; [|split; [reflexivity|left; eauto]].
  cbv zeta. cbn [fst snd]. split; [reflexivity|]. set (l' := add_last l EPS). clearbody l'.
  destruct (digitize_uniform l') as [(e & H)|(ix & H)]; rewrite !H; cbn [bind]; [left; eauto|].
  pose proof (Permutation_map ix PC) as PI. rewrite (forallb_permutation _ _ _ PI). destruct (forallb _ _); cbn [bind assert_]; [|left; eauto].
  unfold take.
  destruct (mapM_uniform (getn l') 0 IndexError _ _ (getn_index l') PI) as [(E1 & E2)|(u & E1 & E2)]; rewrite E1, E2; cbn [bind]; [left; eauto|].
  destruct (mapM_uniform (getn l') 0 IndexError _ _ (getn_index l') (Permutation_map Nat.pred PI)) as [(E3 & E4)|(w & E3 & E4)]; rewrite E3, E4; cbn [bind]; [left; eauto|].
  destruct (getn l' 0) as [z0|e]; cbn [bind]; [|left; eauto]. destruct (getn l' 1) as [z1|e]; cbn [bind]; [|left; eauto].
  unfold col. rewrite !map_map, !set_col_map, !map_map, <- DT. rewrite !vzip_map. cbn [bind].
  destruct (_ =? 0); [left; eauto|]. right. eexists. rewrite !map_map. split; reflexivity.
Qed.
Lemma ale_fit_permutation c c' g f m : c_model c = map g -> c_model c' = map g -> dt (c_data c) = dt (c_data c') -> dim (c_data c) = dim (c_data c') ->
  c_mins c = c_mins c' -> c_maxs c = c_maxs c' -> Permutation (rows (c_data c)) (rows (c_data c')) -> ale_fit_feature c f m = ale_fit_feature c' f m.
Proof.
  intros M1 M2 DT DM MI MA P. unfold ale_fit_feature, getcol. rewrite <- DM, <- MI, <- MA, M1, M2. destruct (Nat.ltb f (dim (c_data c))); [|reflexivity]. cbn [bind].
  destruct (getn (c_mins c) f) as [lo|e]; cbn [bind]; [|reflexivity]. destruct (getn (c_maxs c) f) as [hi|e]; cbn [bind]; [|reflexivity].
  set (X := kept c lo hi f). set (Y := kept c' lo hi f).
  assert (DX : dim X = dim Y) by exact DM. assert (TX : dt X = dt Y) by exact DT. assert (PX : Permutation (rows X) (rows Y)) by now apply filter_permutation.
  match goal with |- bind ?A _ = bind ?A _ => destruct A as [m'|e] end; cbn [bind]; [|reflexivity].
  rewrite (find_limits_same X Y None None f _ m' DX). 2:{ intros. apply b_same_noeff. now apply col_permutation. }
  destruct (find_limits Y None f _ m') as [[|l]|e]; cbn [bind]; try reflexivity.
  destruct (local_effects_permutation X Y g l f TX DX PX) as (E1 & [(e & E2 & E3)|(h & E2 & E3)]);
    destruct (compute_local_effects X (map g) l f) as (l1 & r1), (compute_local_effects Y (map g) l f) as (l2 & r2); cbn [fst snd] in *; subst; cbn [bind]; [reflexivity|].
  apply (ale_params_permutation (fun r => nth f r 0) h l2 _ _ PX).
Qed.
Lemma kept_effects_idx c lo hi f E : kept_effects c lo hi f E = if Nat.eqb (length E) (length (rows (c_data c)))
  then Ok (map snd (filter (fun q => in_range lo hi f (fst q)) (combine (rows (c_data c)) E))) else Raise IndexError.
Proof. reflexivity. Qed.
Lemma kept_fst lo hi f (X E : Mat) : length E = length X -> filter (in_range lo hi f) X = map fst (filter (fun q => in_range lo hi f (fst q)) (combine X E)).
Proof.
  revert E. induction X as [|x X IH]; intros [|e E] L; try discriminate; [reflexivity|]. simpl. destruct (in_range lo hi f x); simpl; [f_equal|]; apply IH; now injection L.
Qed.
Lemma rhale_fit_permutation c c' E E' f m : dim (c_data c) = dim (c_data c') -> c_mins c = c_mins c' -> c_maxs c = c_maxs c' ->
  length E = length (rows (c_data c)) -> length E' = length (rows (c_data c')) ->
  Permutation (combine (rows (c_data c)) E) (combine (rows (c_data c')) E') -> rhale_fit_feature c E f m = rhale_fit_feature c' E' f m.
Proof.
  intros DM MI MA LE LE' P. unfold rhale_fit_feature, getcol. rewrite <- DM, <- MI, <- MA. destruct (Nat.ltb f (dim (c_data c))); [|reflexivity]. cbn [bind].
  destruct (getn (c_mins c) f) as [lo|e]; cbn [bind]; [|reflexivity]. destruct (getn (c_maxs c) f) as [hi|e]; cbn [bind]; [|reflexivity].
  unfold kept_effects. rewrite LE, LE', !Nat.eqb_refl. cbn [bind].
  set (Q := filter (fun q => in_range lo hi f (fst q)) (combine (rows (c_data c)) E)). set (Q' := filter (fun q => in_range lo hi f (fst q)) (combine (rows (c_data c')) E')).
  assert (PQ : Permutation Q Q') by now apply filter_permutation.
  assert (R1 : rows (kept c lo hi f) = map fst Q) by now apply kept_fst. assert (R2 : rows (kept c' lo hi f) = map fst Q') by now apply kept_fst.
  rewrite (find_limits_same (kept c lo hi f) (kept c' lo hi f) (Some (map snd Q)) (Some (map snd Q')) f _ m DM).
  2:{ intros. rewrite R1, R2. unfold col. rewrite !map_map. now apply b_same_pairs. }
  destruct (find_limits _ _ f _ m) as [[|l]|e]; cbn [bind]; try reflexivity. rewrite R1, R2. unfold col. rewrite !map_map. now apply ale_params_permutation.
Qed.

(** ** Two objects whose fits agree answer alike *)
Section Two.
Variables c c' : config.
Variables E0 E0' : option Mat.
Hypothesis KIND : default_method c = default_method c' /\ forall m, method_allowed c m = method_allowed c' m.
Hypothesis DIM : dim (c_data c) = dim (c_data c').
Hypothesis MINS : c_mins c = c_mins c'.
Hypothesis MAXS : c_maxs c = c_maxs c'.
Hypothesis FITS : forall f m, pfit c E0 f m = pfit c' E0' f m.
Record agree (st st' : state) : Prop := {
  ag_e : eff_ok c E0 st; ag_e' : eff_ok c' E0' st';
  ag_fe : forall f, st_fe st f = st_fe st' f; ag_args : forall f, st_args st f = st_args st' f; ag_fitted : forall f, st_fitted st f = st_fitted st' f }.
Lemma norm_const_agree p f ce : compute_norm_const c p f ce = compute_norm_const c' p f ce.
Proof. unfold compute_norm_const. now rewrite MINS, MAXS. Qed.
Lemma agree_feature st st' f m : agree st st' -> snd (fit_feature c st f m) = snd (fit_feature c' st' f m) /\ agree (fst (fit_feature c st f m)) (fst (fit_feature c' st' f m)).
Proof.
  intros [A1 A2 A3 A4 A5]. destruct (fit_feature_pure c E0 st f m A1) as (P1 & Q1). destruct (fit_feature_pure c' E0' st' f m A2) as (P2 & Q2).
  split; [now rewrite P1, P2, FITS|]. pose proof (fit_feature_fields c st f m) as (F1 & F2 & F3). pose proof (fit_feature_fields c' st' f m) as (G1 & G2 & G3).
  constructor; auto; intros k; congruence.
Qed.
Lemma agree_upd st st' f v ce : agree st st' -> agree (set_fe st f v) (set_fe st' f v) /\ agree (set_fitted (set_fe st f v) f ce) (set_fitted (set_fe st' f v) f ce).
Proof.
  intros [A1 A2 A3 A4 A5]. split; constructor; try exact A1; try exact A2; intros k; cbn [st_fe st_args st_fitted set_fe set_fitted]; auto; unfold upd; destruct (Nat.eqb _ _); auto.
Qed.
Lemma agree_one st st' f m ce : agree st st' -> snd (fit_one c st f m ce) = snd (fit_one c' st' f m ce) /\ agree (fst (fit_one c st f m ce)) (fst (fit_one c' st' f m ce)).
Proof.
  intros A. destruct (agree_feature st st' f m A) as (R & B). unfold fit_one.
  destruct (fit_feature c st f m) as (s1 & r1), (fit_feature c' st' f m) as (s2 & r2). cbn [fst snd] in R, B. subst r2.
  destruct r1 as [p|e]; [|split; [reflexivity|exact B]].
  destruct (agree_upd s1 s2 f (p, None) ce B) as (B1 & _). destruct ce.
  - split; [reflexivity|]. now apply agree_upd.
  - rewrite <- norm_const_agree. destruct (compute_norm_const c p f ZeroStart); (split; [reflexivity|]); [now apply agree_upd|exact B1].
  - rewrite <- norm_const_agree. destruct (compute_norm_const c p f ZeroIntegral); (split; [reflexivity|]); [now apply agree_upd|exact B1].
Qed.
Lemma agree_loop m ce fs : forall st st', agree st st' -> snd (fit_loop c st fs m ce) = snd (fit_loop c' st' fs m ce) /\ agree (fst (fit_loop c st fs m ce)) (fst (fit_loop c' st' fs m ce)).
Proof.
  induction fs as [|f fs IH]; intros st st' A; [split; [reflexivity|exact A]|]. cbn [fit_loop]. destruct (agree_one st st' f m ce A) as (R & B).
  destruct (fit_one c st f m ce) as (s1 & r1), (fit_one c' st' f m ce) as (s2 & r2). cbn [fst snd] in R, B. subst r2. destruct r1; [now apply IH|split; [reflexivity|exact B]].
Qed.
Lemma agree_fit st st' fs m cv : agree st st' -> snd (fit c st fs m cv) = snd (fit c' st' fs m cv) /\ agree (fst (fit c st fs m cv)) (fst (fit c' st' fs m cv)).
Proof.
  intros A. unfold fit. destruct KIND as (_ & MO). rewrite <- MO. destruct (method_allowed c m); [|split; [reflexivity|exact A]].
  destruct (prep_cent cv); [now apply agree_loop|split; [reflexivity|exact A]].
Qed.
Lemma agree_eval_fitted rt st st' f xs het ce : agree st st' -> eval_fitted c rt st f xs het ce = eval_fitted c' rt st' f xs het ce.
Proof. intros A. unfold eval_fitted. now rewrite MINS, MAXS, (ag_fe _ _ A). Qed.
Lemma agree_eval rt st st' f xs het cv : agree st st' -> snd (eval c rt st f xs het cv) = snd (eval c' rt st' f xs het cv) /\ agree (fst (eval c rt st f xs het cv)) (fst (eval c' rt st' f xs het cv)).
Proof.
  intros A. unfold eval. destruct (prep_cent cv) as [ce|e]; [|split; [reflexivity|exact A]].
  assert (RE : refit c st f ce = refit c' st' f ce) by (unfold refit; now rewrite DIM, (ag_fitted _ _ A), (ag_args _ _ A)). rewrite <- RE.
  destruct (refit c st f ce) as [[|]|e]; [|split; [now apply agree_eval_fitted|exact A]|split; [reflexivity|exact A]].
  destruct KIND as (DE & _). rewrite <- DE. destruct (agree_fit st st' [f] (default_method c) cv A) as (R & B).
  destruct (fit c st [f] (default_method c) cv) as (s1 & r1), (fit c' st' [f] (default_method c) cv) as (s2 & r2). cbn [fst snd] in R, B. subst r2.
  destruct r1; (split; [|exact B]); [now apply agree_eval_fitted|reflexivity].
Qed.
Lemma agree_run rt ks : forall st st', agree st st' -> agree (run c rt st ks) (run c' rt st' ks).
Proof.
  unfold run. induction ks as [|k ks IH]; intros st st' A; [exact A|]. cbn [fold_left]. apply IH. destruct k; simpl; [now apply agree_fit|now apply agree_eval].
Qed.
Lemma agree_fresh : agree (fresh E0) (fresh E0').
Proof. constructor; try reflexivity; unfold eff_ok; [destruct (c_kind c)|destruct (c_kind c')]; auto. Qed.
Lemma same_answers rt ks f xs het cv : snd (eval c rt (run c rt (fresh E0) ks) f xs het cv) = snd (eval c' rt (run c' rt (fresh E0') ks) f xs het cv).
Proof. apply agree_eval, agree_run, agree_fresh. Qed.
End Two.
