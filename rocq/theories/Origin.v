(** Origin: two ALE/RHALE objects on the same instances, the columns of the second measured from another origin, x |-> x + b (proofs for C91). *)
From Verif Require Import Base Numpy Spec NumpyFacts Utils UtilsProofs Helpers HelpersProofs Integrate Binning GlobalALE GlobalPDP ALEState ALEHist PDPProofs RegOrder OrderProofs Columns Units.
Open Scope Qc_scope.
Open Scope list_scope.

Lemma one_pos : 0 < 1. Proof. qlra. Qed.
Lemma combine_map2 {A B A' B'} (h : A -> A') (k : B -> B') l l' : combine (map h l) (map k l') = map (fun p => (h (fst p), k (snd p))) (combine l l').
Proof. revert l'. induction l as [|x l IH]; intros [|y l']; try reflexivity. cbn [map combine]. now rewrite IH. Qed.
Lemma tl_map {A B} (h : A -> B) l : tl (map h l) = map h (tl l). Proof. now destruct l. Qed.
Lemma getz_map {A B} (h : A -> B) l z : getz (map h l) z = rmap h (getz l z).
Proof. unfold getz. rewrite map_length. destruct (_ <? 0)%Z; [reflexivity|]. rewrite nth_error_map. destruct (nth_error l _); reflexivity. Qed.
Lemma take_of_map {A B} (h : A -> B) l ix : take (map h l) ix = rmap (map h) (take l ix).
Proof. unfold take. induction ix as [|i ix IH]; [reflexivity|]. cbn [mapM]. rewrite getn_map, IH. destruct (getn l i); [|reflexivity]. cbn [rmap bind]. destruct (mapM (getn l) ix); reflexivity. Qed.
Lemma init_map {A B} (h : A -> B) l : init_ (map h l) = map h (init_ l).
Proof. unfold init_. induction l as [|x l IH]; [reflexivity|]. cbn [map removelast]. destruct l; [reflexivity|]. cbn [map] in *. now rewrite IH. Qed.
Lemma updn_map {A B} (h : A -> B) (p : A -> A) (p' : B -> B) (d : A) l i : (forall x, h (p x) = p' (h x)) -> map h (list_updn l i p) = list_updn (map h l) i p'.
Proof. intros H. revert i. induction l as [|x l IH]; intros [|i]; try reflexivity; cbn [list_updn map]; [now rewrite H|now rewrite IH]. Qed.
Lemma count_map {A B} (h : A -> B) (p : B -> bool) l : count p (map h l) = count (fun x => p (h x)) l.
Proof. unfold count. now rewrite filter_map_comm, map_length. Qed.
Lemma count_ext {A} (p q : A -> bool) l : (forall x, p x = q x) -> count p l = count q l.
Proof. intros H. unfold count. f_equal. now apply filter_ext. Qed.

Section Axis.
Variable t : Qc.
Notation s := (unit 1 t).
Lemma shift_diff x y : s x - s y = x - y. Proof. unfold unit. ring. Qed.
Lemma shift_add x e : s (x + e) = s x + e. Proof. unfold unit. ring. Qed.
Lemma shift_leb x y : (s x <=? s y) = (x <=? y). Proof. apply unit_leb, one_pos. Qed.
Lemma shift_ltb x y : (s x <? s y) = (x <? y). Proof. apply unit_ltb, one_pos. Qed.
Lemma shift_eqb x y : (s x =? s y) = (x =? y). Proof. apply unit_eqb, one_pos. Qed.
Lemma add_last_map l e : add_last (map s l) e = map s (add_last l e).
Proof. unfold add_last. rewrite map_length. symmetry. apply updn_map; [exact 0|]. intros x. apply shift_add. Qed.
Lemma digitize_shift xs l : digitize (map s xs) (map s l) = digitize xs l.
Proof.
  unfold digitize, mono_incr, mono_decr. rewrite !tl_map, !combine_map2.
  assert (F : forall p : Qc * Qc -> bool, forall q : Qc * Qc -> bool, (forall x y, p (s x, s y) = q (x, y)) -> forallb p (map (fun w => (s (fst w), s (snd w))) (combine l (tl l))) = forallb q (combine l (tl l))).
  { intros p q H. induction (combine l (tl l)) as [|[x y] w IH]; [reflexivity|]. cbn [map forallb fst snd]. now rewrite H, IH. }
  rewrite (F _ (fun p => fst p <=? snd p)) by (intros; apply shift_leb). rewrite (F _ (fun p => snd p <=? fst p)) by (intros; apply shift_leb).
  destruct (forallb _ _); [f_equal; rewrite map_map; apply map_ext; intros x; unfold digitize1; rewrite count_map; apply count_ext; intros; apply shift_leb|].
  destruct (forallb _ _); [f_equal; rewrite map_map; apply map_ext; intros x; unfold digitize1d; rewrite count_map; apply count_ext; intros; apply shift_ltb|reflexivity].
Qed.
Lemma diffs_shift l : diffs (map s l) = diffs l.
Proof. unfold diffs. rewrite tl_map, combine_map2, map_map. apply map_ext. intros p. apply shift_diff. Qed.
Lemma bin_indices_shift xs l : bin_indices (map s xs) (map s l) = bin_indices xs l.
Proof. unfold bin_indices. destruct l as [|x l]; [reflexivity|]. cbn [map]. change (s x :: map s l) with (map s (x :: l)). now rewrite add_last_map, digitize_shift. Qed.
Definition shift_params (p : ale_params) : ale_params := mkParams (map s (ap_limits p)) (ap_dx p) (ap_ppb p) (ap_effect p) (ap_var p) (ap_estvar p).
Lemma params_shift xs es l : compute_ale_params (map s xs) es (map s l) = rmap shift_params (compute_ale_params xs es l).
Proof.
  unfold compute_ale_params, compute_bin_effect, compute_bin_variance. rewrite bin_indices_shift, diffs_shift, map_length.
  destruct (bin_indices xs l) as [ix|e]; cbn [rmap bind]; [|reflexivity]. destruct (bincount_w _ _ _) as [w|e]; cbn [rmap bind]; [|reflexivity]. destruct (bincount _ _) as [n|e]; cbn [rmap bind]; [|reflexivity].
  destruct (takez _ _) as [m|e]; cbn [rmap bind]; [|reflexivity]. destruct (vzip _ _ _) as [v|e]; cbn [rmap bind]; [|reflexivity]. destruct (bincount_w _ v _) as [w'|e]; cbn [rmap bind]; [|reflexivity].
  destruct (fill_nans _) as [f1|e]; cbn [rmap bind]; [|reflexivity]. destruct (fill_nans _) as [f2|e]; cbn [rmap bind]; [|reflexivity]. destruct (fill_nans _) as [f3|e]; cbn [rmap bind]; reflexivity.
Qed.
(** beyond the last limit the code subtracts the sentinel BIG_M: equal only below it on both axes *)
Definition below (x : Qc) : Prop := x <= BIG_M /\ s x <= BIG_M.
Lemma accumulated_shift xs l be dx sq : (forall x, In x xs -> below x) -> compute_accumulated_effect (map s xs) (map s l) be dx sq = compute_accumulated_effect xs l be dx sq.
Proof.
  intros B. unfold compute_accumulated_effect. rewrite digitize_shift. destruct (digitize xs l) as [ix|e] eqn:EI; cbn [bind]; [|reflexivity].
  destruct (vzip _ _ _) as [pr|e]; cbn [bind]; [|reflexivity]. destruct (take (0 :: 0 :: cumsum pr) ix) as [fb|e]; cbn [bind]; [|reflexivity].
  rewrite getn_map. destruct (getn l 0) as [l0|e]; cbn [rmap bind]; [|reflexivity]. rewrite init_map.
  assert (T : forall ys, (exists e, take (l0 :: init_ l ++ [BIG_M]) ys = Raise e /\ take (s l0 :: map s (init_ l) ++ [BIG_M]) ys = Raise e) \/
    exists v v', take (l0 :: init_ l ++ [BIG_M]) ys = Ok v /\ take (s l0 :: map s (init_ l) ++ [BIG_M]) ys = Ok v' /\ Forall2 (fun y y' => y' = s y \/ y = BIG_M /\ y' = BIG_M) v v').
  { assert (G : forall i, (exists e, getn (l0 :: init_ l ++ [BIG_M]) i = Raise e /\ getn (s l0 :: map s (init_ l) ++ [BIG_M]) i = Raise e) \/
      exists y y', getn (l0 :: init_ l ++ [BIG_M]) i = Ok y /\ getn (s l0 :: map s (init_ l) ++ [BIG_M]) i = Ok y' /\ (y' = s y \/ y = BIG_M /\ y' = BIG_M)).
    { intros i. unfold getn. change (s l0 :: map s (init_ l) ++ [BIG_M]) with (map s (l0 :: init_ l) ++ [BIG_M]). change (l0 :: init_ l ++ [BIG_M]) with ((l0 :: init_ l) ++ [BIG_M]).
      set (k := l0 :: init_ l). destruct (Nat.lt_ge_cases i (length k)) as [H|H].
      - rewrite !nth_error_app1 by (rewrite ?map_length; exact H). rewrite nth_error_map. destruct (nth_error k i) as [y|] eqn:E; [|apply nth_error_None in E; lia]. right. exists y, (s y). repeat split. now left.
      - rewrite !nth_error_app2 by (rewrite ?map_length; exact H). rewrite map_length. destruct (nth_error [BIG_M] (i - length k)) as [y|] eqn:E; [|left; now exists IndexError].
        right. exists y, y. repeat split. right. assert (y = BIG_M); [|tauto]. destruct (i - length k)%nat as [|[|?]]; simpl in E; congruence. }
    unfold take. induction ys as [|i ys IH]; [right; exists [], []; repeat split; constructor|]. cbn [mapM]. destruct (G i) as [(e & -> & ->)|(y & y' & -> & -> & R)]; cbn [bind]; [left; now exists e|].
    destruct IH as [(e & -> & ->)|(v & v' & -> & -> & F)]; cbn [bind]; [left; now exists e|]. right. exists (y :: v), (y' :: v'). repeat split. now constructor. }
  destruct (T ix) as [(e & -> & ->)|(v & v' & -> & -> & F)]; cbn [bind]; [reflexivity|].
  assert (DE : map (fun p : Qc * Qc => let d := fst p - snd p in if d <? 0 then 0 else d) (combine (map s xs) v') = map (fun p : Qc * Qc => let d := fst p - snd p in if d <? 0 then 0 else d) (combine xs v)).
  { clear EI. revert xs B. induction F as [|y y' v v' R F IH]; intros [|x xs] B; try reflexivity. cbn [map combine fst snd]. rewrite IH by (intros z I; apply B; now right). f_equal.
    destruct R as [->|(-> & ->)]; [now rewrite shift_diff|]. destruct (B x (or_introl eq_refl)) as (B1 & B2).
    assert (P : forall z, z <= BIG_M -> (if z - BIG_M <? 0 then 0 else z - BIG_M) = 0) by (intros z Hz; destruct (Qcltb_spec (z - BIG_M) 0); [reflexivity|qlra]). cbv zeta. now rewrite !P. }
  cbv zeta in DE |- *. rewrite DE. reflexivity.
Qed.

(** ** the binning methods *)
Definition shift_binner (b : binner) : binner := mkB (map s (b_xs b)) (b_eff b) (s (b_lo b)) (s (b_hi b)).
Definition shift_lims (l : lims) : lims := match l with LFalse => LFalse | LArr l => LArr (map s l) end.
Lemma unique_shift l : unique (map s l) = map s (unique l).
Proof.
  unfold unique. induction l as [|x l IH]; [reflexivity|]. cbn [map fold_right]. rewrite IH. generalize (fold_right uinsert [] l) as k. clear IH. intros k.
  induction k as [|y k IH]; [reflexivity|]. cbn [map uinsert]. rewrite shift_ltb, shift_eqb. destruct (x <? y); [reflexivity|]. destruct (x =? y); [reflexivity|]. cbn [map]. now rewrite IH.
Qed.
Section Binner.
Variable b : binner.
Notation b' := (shift_binner b).
Lemma closed_shift x y z : closed_in (s x) (s y) (s z) = closed_in x y z.
Proof. unfold closed_in. now rewrite !shift_leb. Qed.
Lemma bin_cost_shift m d x y : bin_cost b' m d (s x) (s y) = bin_cost b m d x y.
Proof.
  unfold bin_cost. cbn [b_xs b_eff shift_binner]. rewrite map_length, shift_diff.
  replace (filter_effects_in_bin (map s (b_xs b)) (b_eff b) (s x) (s y)) with (filter_effects_in_bin (b_xs b) (b_eff b) x y); [reflexivity|].
  unfold filter_effects_in_bin. generalize (b_eff b) as e. induction (b_xs b) as [|z l IH]; intros [|w e]; try reflexivity. cbn [map combine filter fst]. rewrite closed_shift.
  destruct (closed_in x y z); cbn [map snd]; now rewrite IH.
Qed.
Lemma bin_valid_shift mp x y : bin_valid b' mp (s x) (s y) = bin_valid b mp x y.
Proof. unfold bin_valid. destruct mp as [m|]; [|reflexivity]. unfold filter_points_in_bin. cbn [b_xs shift_binner]. rewrite filter_map_comm, map_length. do 2 f_equal. apply filter_ext. intros z. apply closed_shift. Qed.
Lemma none_valid_shift mp : none_valid_binning b' mp = none_valid_binning b mp.
Proof. unfold none_valid_binning. cbn [b_xs shift_binner]. now rewrite unique_shift, !map_length. Qed.
Lemma all_bins_shift mp l : all_bins (bin_valid b' mp) (map s l) = all_bins (bin_valid b mp) l.
Proof.
  unfold all_bins. rewrite tl_map, combine_map2. induction (combine l (tl l)) as [|[x y] w IH]; [reflexivity|]. cbn [map forallb fst snd]. now rewrite bin_valid_shift, IH.
Qed.
Lemma cat_limits_shift l : cat_limits (map s l) = rmap (map s) (cat_limits l).
Proof.
  unfold cat_limits. rewrite diffs_shift, getn_map, getz_map. destruct (getn l 0) as [u0|e]; cbn [rmap bind]; [|reflexivity]. destruct (getn (diffs l) 0) as [d0|e]; cbn [rmap bind]; [|reflexivity].
  destruct (getz l (-1)) as [ul|e]; cbn [rmap bind]; [|reflexivity]. destruct (getz (diffs l) (-1)) as [dl|e]; cbn [rmap bind]; [|reflexivity].
  f_equal. rewrite !map_app. cbn [map]. f_equal; [f_equal; unfold unit; ring|]. f_equal; [|f_equal; unfold unit; ring].
  generalize (diffs l) as dd. clear. induction l as [|x l IH]; intros [|y dd]; try reflexivity. cbn [map combine fst snd]. rewrite IH. f_equal. unfold unit. ring.
Qed.
Lemma categorical_shift mp k : is_categorical b' mp k = rmap (option_map shift_lims) (is_categorical b mp k).
Proof.
  unfold is_categorical. cbn [b_xs shift_binner]. rewrite unique_shift, map_length. destruct (Nat.leb _ k); [|reflexivity].
  rewrite cat_limits_shift. destruct (cat_limits (unique (b_xs b))) as [l|e]; cbn [rmap bind]; [|reflexivity]. rewrite all_bins_shift. destruct (all_bins _ _); reflexivity.
Qed.
Lemma greedy_shift n d m : greedy_merge b' n d m = rmap (map s) (greedy_merge b n d m).
Proof.
  unfold greedy_merge. cbn [b_lo b_hi shift_binner]. rewrite linspace_map. set (l := linspace (b_lo b) (b_hi b) (n + 1)). assert (LL : length l = (n + 1)%nat) by apply linspace_length.
  assert (N : forall i, (i <= n)%nat -> nth i (map s l) 0 = s (nth i l 0)) by (intros i Hi; apply nth_map_in; lia).
  assert (C : forall x i, (i < n)%nat -> close_bin b' m d n (map s l) (s x) i = close_bin b m d n l x i).
  { intros x i Hi. unfold close_bin. destruct (Nat.eqb_spec i (n - 1)) as [|NE]; [reflexivity|]. cbv zeta. now rewrite !N, !bin_cost_shift, !bin_valid_shift by lia. }
  assert (G : forall todo i mg, (todo + i = n)%nat -> mg <> [] -> greedy_loop b' m d n (map s l) todo i (map s mg) = map s (greedy_loop b m d n l todo i mg)).
  { induction todo as [|todo IH]; intros i mg E NE; [reflexivity|]. cbn [greedy_loop]. destruct mg as [|x mg]; [contradiction|]. cbn [map hd]. rewrite C by lia.
    destruct (close_bin b m d n l x i); [rewrite N by lia|]; rewrite <- IH by (lia || discriminate); reflexivity. }
  rewrite N by lia. change [s (nth 0 l 0)] with (map s [nth 0 l 0]). rewrite G by (lia || discriminate).
  destruct (greedy_loop b m d n l n 0 [nth 0 l 0]) as [|x [|y r]]; try reflexivity. cbn [map]. rewrite bin_valid_shift. destruct (bin_valid b (Some m) y x); cbn [rmap bind]; f_equal.
  - change (s x :: s y :: map s r) with (map s (x :: y :: r)). now rewrite map_rev.
  - now rewrite map_app, map_rev.
Qed.
Lemma dp_limits_shift m d K : dp_limits b' m d K = map s (dp_limits b m d K).
Proof.
  assert (P : forall i, position b' K i = s (position b K i)) by (intros i; unfold position; cbn [b_lo b_hi shift_binner]; rewrite shift_diff; unfold unit; ring).
  unfold dp_limits. rewrite map_map, (map_ext _ _ P). f_equal. f_equal.
  assert (C : forall i j, cost_of_move b' m d K i j = cost_of_move b m d K i j) by (intros; unfold cost_of_move; now rewrite !P, bin_cost_shift).
  assert (DC : forall col, dp_column (cost_of_move b' m d K) K col = dp_column (cost_of_move b m d K) K col).
  { intros col. unfold dp_column. replace (map (fun next => match np_min_argmin (map (fun before => lift2 Qcplus (nth before col None) (cost_of_move b' m d K before next)) (seq 0 (K + 1))) with Ok p => p | Raise _ => (None, 0%nat) end) (seq 0 (K + 1)))
      with (map (fun next => match np_min_argmin (map (fun before => lift2 Qcplus (nth before col None) (cost_of_move b m d K before next)) (seq 0 (K + 1))) with Ok p => p | Raise _ => (None, 0%nat) end) (seq 0 (K + 1))); [reflexivity|].
    apply map_ext. intros nx. now rewrite (map_ext _ _ (fun bf => f_equal (lift2 Qcplus (nth bf col None)) (C bf nx))). }
  assert (DD : forall n col acc, dp_columns (cost_of_move b' m d K) K n col acc = dp_columns (cost_of_move b m d K) K n col acc).
  { induction n as [|n IH]; intros col acc; [reflexivity|]. cbn [dp_columns]. now rewrite DC, IH. }
  unfold dp_path. now rewrite DD, (map_ext _ _ (C 0%nat)).
Qed.
(** [only_one_bin_possible] compares the ends with a relative tolerance, which is not translation invariant *)
Definition same_closeness : Prop := allclose (s (b_lo b)) (s (b_hi b)) = allclose (b_lo b) (b_hi b).
Definition uses_closeness (m : method) : Prop := match m with MFixed _ _ _ => False | MStr s => s <> "fixed"%string | _ => True end.
Lemma find_b_shift m : (uses_closeness m -> same_closeness) -> find_limits_b b' m = rmap shift_lims (find_limits_b b m).
Proof.
  intros H.
  assert (FX : forall n mp k, fixed_find b' n mp k = rmap shift_lims (fixed_find b n mp k)).
  { intros n mp k. unfold fixed_find. rewrite none_valid_shift. destruct (none_valid_binning b mp) as [nv|e]; cbn [rmap bind]; [|reflexivity]. rewrite categorical_shift.
    destruct (is_categorical b mp k) as [[l|]|e]; cbn [rmap bind option_map]; try reflexivity. cbn [b_lo b_hi shift_binner]. rewrite linspace_map.
    destruct mp as [m0|]; [|reflexivity]. rewrite all_bins_shift. destruct (all_bins _ _); reflexivity. }
  assert (GR : same_closeness -> forall n d mp k, greedy_find b' n d mp k = rmap shift_lims (greedy_find b n d mp k)).
  { intros SC n d mp k. unfold greedy_find. rewrite none_valid_shift. destruct (none_valid_binning b mp) as [[|]|e]; cbn [rmap bind]; try reflexivity. rewrite categorical_shift.
    destruct (is_categorical b mp k) as [[l|]|e]; cbn [rmap bind option_map]; try reflexivity. destruct mp as [m0|]; [|reflexivity].
    unfold only_one_bin_possible. cbn [b_lo b_hi b_eff shift_binner]. rewrite SC. destruct (_ || _)%bool; [reflexivity|]. rewrite greedy_shift. destruct (greedy_merge b n d m0); reflexivity. }
  assert (DP : same_closeness -> forall n d mp k, dp_find b' n mp d k = rmap shift_lims (dp_find b n mp d k)).
  { intros SC n d mp k. unfold dp_find. rewrite none_valid_shift. destruct (none_valid_binning b mp) as [[|]|e]; cbn [rmap bind]; try reflexivity. rewrite categorical_shift.
    destruct (is_categorical b mp k) as [[l|]|e]; cbn [rmap bind option_map]; try reflexivity. destruct mp as [m0|]; [|reflexivity].
    unfold only_one_bin_possible. cbn [b_lo b_hi b_eff shift_binner]. rewrite SC. destruct (_ || _)%bool; [reflexivity|]. destruct n as [|[|n]]; try reflexivity. now rewrite dp_limits_shift. }
  destruct m as [q|n mp k|n mp d k|n mp d k]; cbn [find_limits_b uses_closeness] in *; [|apply FX|apply GR, H, I|apply DP, H, I].
  destruct (String.eqb_spec q "fixed") as [|NE]; [apply FX|]. destruct (String.eqb q "greedy"); [now apply GR, H|]. destruct (String.eqb q "dp"); [now apply DP, H|reflexivity].
Qed.
End Binner.
End Axis.

Lemma midpoints_le lo hi n M x : (2 <= n)%nat -> lo <= M -> hi <= M -> In x (midpoints (linspace lo hi n)) -> x <= M.
Proof.
  intros Hn L H I. destruct (Qcleb_spec lo hi) as [O|O]; [destruct (midpoints_linspace_in lo hi n x Hn O I); qlra|].
  apply (In_nth _ _ 0) in I as (k & Hk & <-). rewrite midpoints_length, linspace_length in Hk. rewrite midpoints_linspace_nth by lia.
  assert (W : (hi - lo) / qn (n - 1) <= 0). { apply Qcdiv_le_iff; [apply qn_pos; lia|]. qlra. }
  pose proof (qn_nonneg k). set (w := (hi - lo) / qn (n - 1)) in *. clearbody w. assert (Q : (qn k + qn k + 1) * w <= 0).
  { replace 0 with ((qn k + qn k + 1) * 0) by ring. apply Qcmul_le_compat_l; [qlra|exact W]. }
  set (z := (qn k + qn k + 1) * w) in *. clearbody z. qlra.
Qed.
Lemma midpoints_shift t l : midpoints (map (unit 1 t) l) = map (unit 1 t) (midpoints l).
Proof.
  unfold midpoints. rewrite init_map, tl_map, combine_map2, !map_map. apply map_ext. intros p. cbn [fst snd]. unfold unit.
  replace (Q2Qc (1 # 2) * (1 * fst p + t + (1 * snd p + t))) with (Q2Qc (1 # 2) * (fst p + snd p) + (Q2Qc (1 # 2) * t + Q2Qc (1 # 2) * t)) by ring.
  replace (Q2Qc (1 # 2) * t + Q2Qc (1 # 2) * t) with t by qlra. ring.
Qed.

(** ** ALE and RHALE objects *)
Section Objects.
Variable b : nat -> Qc.
Variable D : nat.
Notation one := (fun _ : nat => 1).
Notation U := (rescale one b).
Notation s := (fun i => unit 1 (b i)).
Notation square := (square D).
Variables g g' : list Qc -> Qc.
Hypothesis GG : forall r, length r = D -> g' (U r) = g r.
Lemma map_models_shift (Z : Mat) : square Z -> map g' (map U Z) = map g Z.
Proof. intros Q. rewrite map_map. apply map_ext_in. intros r I. apply GG. eapply Forall_forall in Q; eauto. Qed.
Lemma set_col_shift X f vs : (f < D)%nat -> fine D X -> set_col (rescale_data one b X) f (map (unit 1 (b f)) vs) = map U (set_col X f vs) /\ square (set_col X f vs).
Proof.
  intros H (DX & DT & Q). unfold set_col, rescale_data. cbn [dt rows]. rewrite DT. cbn [store]. revert vs. induction Q as [|r Z L Q IH]; intros [|v vs]; cbn [map combine]; try (split; [reflexivity|constructor]).
  destruct (IH vs) as (E & W). split; [f_equal; [|exact E]|constructor; [|exact W]]; cbn [fst snd]; [rewrite rescale_set by lia; reflexivity|now rewrite list_set_length].
Qed.
Lemma local_effects_shift X l f : (f < D)%nat -> fine D X ->
  compute_local_effects (rescale_data one b X) (map g') (map (unit 1 (b f)) l) f = (map (unit 1 (b f)) (fst (compute_local_effects X (map g) l f)), snd (compute_local_effects X (map g) l f)).
Proof.
  intros H F. pose proof F as (DX & DT & Q). unfold compute_local_effects, getcol. cbn [dim rescale_data rows]. rewrite DX, (proj2 (Nat.ltb_lt f D) H), (rescale_col one b D) by assumption.
  cbn [bind]. rewrite getn_map. destruct (getn l 0) as [l0|e]; cbn [rmap bind fst snd]; [|reflexivity]. rewrite min_map, max_map by apply one_pos.
  destruct (np_min (col (rows X) f)) as [mn|e]; cbn [rmap bind fst snd]; [|reflexivity]. rewrite shift_leb. destruct (l0 <=? mn); cbn [assert_ bind fst snd]; [|reflexivity].
  rewrite getz_map. destruct (getz l (-1)) as [lk|e]; cbn [rmap bind fst snd]; [|reflexivity]. destruct (np_max (col (rows X) f)) as [mx|e]; cbn [rmap bind fst snd]; [|reflexivity].
  rewrite shift_leb. destruct (mx <=? lk); cbn [assert_ bind fst snd]; [|reflexivity]. rewrite add_last_map. apply f_equal. rewrite digitize_shift.
  destruct (digitize (col (rows X) f) (add_last l EPS)) as [ind|e]; cbn [assert_ bind]; [|reflexivity]. destruct (forallb _ ind); cbn [assert_ bind]; [|reflexivity].
  rewrite !take_of_map. destruct (take (add_last l EPS) ind) as [u|e]; cbn [rmap bind]; [|reflexivity]. destruct (take (add_last l EPS) (map Nat.pred ind)) as [w|e]; cbn [rmap bind]; [|reflexivity].
  rewrite !getn_map. destruct (getn (add_last l EPS) 0) as [k0|e]; cbn [rmap bind]; [|reflexivity]. destruct (getn (add_last l EPS) 1) as [k1|e]; cbn [rmap bind]; [|reflexivity].
  cbv zeta. change (mkData (dt X) (dim X) (map U (rows X))) with (rescale_data one b X). destruct (set_col_shift X f u H F) as (E1 & W1), (set_col_shift X f w H F) as (E2 & W2). rewrite shift_diff.
  rewrite E1, E2, !map_models_shift by assumption. reflexivity.
Qed.
Lemma find_limits_shift X E mins maxs f m : (f < D)%nat -> fine D X -> length mins = D -> length maxs = D -> (uses_closeness m -> allclose (unit 1 (b f) mins@f) (unit 1 (b f) maxs@f) = allclose mins@f maxs@f) ->
  find_limits (rescale_data one b X) E f (U mins, U maxs) m = rmap (shift_lims (b f)) (find_limits X E f (mins, maxs) m).
Proof.
  intros H (DX & DT & Q) L1 L2 CL.
  assert (B : exists bb, make_binner X E f (Some (mins, maxs)) = Ok bb /\ make_binner (rescale_data one b X) E f (Some (U mins, U maxs)) = Ok (shift_binner (b f) bb) /\ b_lo bb = mins@f /\ b_hi bb = maxs@f).
  { unfold make_binner, getcol. cbn [dim rescale_data rows]. rewrite !rescale_getn, DX, (proj2 (Nat.ltb_lt f D) H), (rescale_col one b D) by assumption.
    rewrite !(getn_ok _ f 0) by lia. cbn [rmap bind]. eexists. repeat split; reflexivity. }
  destruct B as (bb & B1 & B2 & B3 & B4).
  assert (FB : find_limits_b (shift_binner (b f) bb) m = rmap (shift_lims (b f)) (find_limits_b bb m)) by (apply find_b_shift; unfold same_closeness; rewrite B3, B4; exact CL).
  unfold find_limits. rewrite B1, B2. cbn [bind]. rewrite FB. destruct m; try reflexivity. destruct (_ || _ || _)%bool; reflexivity.
Qed.
Variables c c' : config.
Hypothesis MD : c_model c = map g.
Hypothesis MD' : c_model c' = map g'.
Hypothesis FINE : fine D (c_data c).
Hypothesis DATA : c_data c' = rescale_data one b (c_data c).
Hypothesis LMIN : length (c_mins c) = D.
Hypothesis LMAX : length (c_maxs c) = D.
Hypothesis MINS : c_mins c' = U (c_mins c).
Hypothesis MAXS : c_maxs c' = U (c_maxs c).
Lemma kept_shift lo hi f : (f < D)%nat -> kept c' (unit 1 (b f) lo) (unit 1 (b f) hi) f = rescale_data one b (kept c lo hi f) /\ fine D (kept c lo hi f).
Proof.
  destruct FINE as (DX & DT & Q). intros H. split; [|split; [exact DX|split; [exact DT|now apply Forall_filter_]]]. unfold kept, rescale_data. rewrite DATA. cbn [dt dim rows rescale_data]. f_equal.
  apply (rescale_filter one b D (fun v => (lo <=? v) && (v <=? hi)) (fun v => (unit 1 (b f) lo <=? v) && (v <=? unit 1 (b f) hi))); auto. intros x. now rewrite !shift_leb.
Qed.
Lemma dims_shift f : getcol (c_data c') f = rmap (map (unit 1 (b f))) (getcol (c_data c) f).
Proof.
  destruct FINE as (DX & DT & Q). unfold getcol. rewrite DATA. cbn [dim rescale_data rows]. rewrite DX. destruct (Nat.ltb_spec f D); [|reflexivity]. cbn [rmap bind]. now rewrite (rescale_col one b D).
Qed.
Definition close_alike (f : nat) : Prop := allclose (unit 1 (b f) (c_mins c)@f) (unit 1 (b f) (c_maxs c)@f) = allclose (c_mins c)@f (c_maxs c)@f.
Lemma ale_fit_shift f m : (f < D)%nat -> ale_fit_feature c' f m = rmap (shift_params (b f)) (ale_fit_feature c f m).
Proof.
  intros H. unfold ale_fit_feature. rewrite dims_shift, MINS, MAXS, !rescale_getn, MD, MD'.
  destruct (getcol _ _); cbn [rmap bind]; [|reflexivity]. destruct (getn (c_mins c) f) as [lo|e]; cbn [rmap bind]; [|reflexivity]. destruct (getn (c_maxs c) f) as [hi|e]; cbn [rmap bind]; [|reflexivity].
  destruct (match m with MStr q => if String.eqb q "fixed" then Ok (MFixed 20 (Some 0%nat) 15) else Raise AssertionError | MFixed _ _ _ => Ok m | _ => Raise AssertionError end) as [m'|e] eqn:EM; cbn [rmap bind]; [|reflexivity].
  assert (NC : ~ uses_closeness m') by (destruct m as [q|n mp k|n mp d k|n mp d k]; try discriminate; [destruct (String.eqb q "fixed"); [|discriminate]|]; injection EM as <-; intros []).
  destruct (kept_shift lo hi f H) as (K & F). rewrite K. rewrite (find_limits_shift _ None) by (auto; contradiction).
  destruct (find_limits _ _ _ _ _) as [[|l]|e]; cbn [rmap bind shift_lims]; try reflexivity. rewrite local_effects_shift by assumption.
  destruct (compute_local_effects (kept c lo hi f) (map g) l f) as (l' & [es|e]); cbn [rmap bind fst snd]; [|reflexivity]. cbn [rows rescale_data]. rewrite (rescale_col one b D) by (auto; apply F). apply params_shift.
Qed.
Lemma rhale_fit_shift E f m : (f < D)%nat -> close_alike f -> rhale_fit_feature c' E f m = rmap (shift_params (b f)) (rhale_fit_feature c E f m).
Proof.
  intros H CL. unfold rhale_fit_feature. rewrite dims_shift, MINS, MAXS, !rescale_getn.
  destruct (getcol _ _); cbn [rmap bind]; [|reflexivity]. destruct (getn (c_mins c) f) as [lo|e]; cbn [rmap bind]; [|reflexivity]. destruct (getn (c_maxs c) f) as [hi|e]; cbn [rmap bind]; [|reflexivity].
  destruct (kept_shift lo hi f H) as (K & F). rewrite K.
  assert (KE : kept_effects c' (unit 1 (b f) lo) (unit 1 (b f) hi) f E = kept_effects c lo hi f E).
  { unfold kept_effects. rewrite DATA. cbn [rows rescale_data]. rewrite map_length. destruct (Nat.eqb _ _); [|reflexivity]. apply f_equal.
    destruct FINE as (_ & _ & Q). clear -H Q. revert E. induction Q as [|r Z L Q IH]; intros [|e E]; try reflexivity. cbn [map combine filter fst].
    replace (in_range (unit 1 (b f) lo) (unit 1 (b f) hi) f (U r)) with (in_range lo hi f r) by (unfold in_range; rewrite rescale_nth by lia; now rewrite !shift_leb).
    destruct (in_range lo hi f r); cbn [map snd]; [f_equal|]; apply IH. }
  rewrite KE. destruct (kept_effects c lo hi f E) as [e|x]; cbn [rmap bind]; [|reflexivity].
  rewrite (find_limits_shift _ (Some e)) by auto.
  destruct (find_limits _ _ _ _ _) as [[|l]|x]; cbn [rmap bind shift_lims]; try reflexivity. cbn [rows rescale_data]. rewrite (rescale_col one b D) by (auto; apply F). apply params_shift.
Qed.
Lemma numerical_shift eps : compute_jacobian_numerically (map g') (rescale_data one b (c_data c)) eps = compute_jacobian_numerically (map g) (c_data c) eps.
Proof.
  destruct FINE as (DX & DT & Q). unfold compute_jacobian_numerically. cbn [dt dim rows rescale_data]. rewrite DX, DT, map_length, map_models_shift by exact Q.
  assert (A : forall n k, (k + n <= D)%nat -> mapM (fun f => d <- vzip Qcminus (map g' (add_col (mkData Float64 D (map U (rows (c_data c)))) f eps)) (map g (rows (c_data c))) ;; (if eps =? 0 then Raise NonFinite else broadcast_to (length (rows (c_data c))) (map (fun v => v / eps) d))) (seq k n) =
    mapM (fun f => d <- vzip Qcminus (map g (add_col (c_data c) f eps)) (map g (rows (c_data c))) ;; (if eps =? 0 then Raise NonFinite else broadcast_to (length (rows (c_data c))) (map (fun v => v / eps) d))) (seq k n)).
  { induction n as [|n IH]; intros k Hk; [reflexivity|]. cbn [seq mapM]. rewrite IH by lia. clear IH.
    replace (map g' (add_col (mkData Float64 D (map U (rows (c_data c)))) k eps)) with (map g (add_col (c_data c) k eps)); [reflexivity|].
    unfold add_col. cbn [rows]. rewrite !map_map. apply map_ext_in. intros r I. eapply Forall_forall in Q; [|exact I].
    replace (list_updn (U r) k (fun v => v + eps)) with (U (list_updn r k (fun v => v + eps))); [symmetry; apply GG; now rewrite list_updn_length|].
    apply (nth_ext _ _ 0 0); [now rewrite !rescale_length, !list_updn_length, rescale_length|]. rewrite rescale_length, list_updn_length. intros i Hi.
    rewrite rescale_nth by now rewrite list_updn_length. rewrite !list_updn_nth by (rewrite ?rescale_length; lia). rewrite !rescale_nth by lia. destruct (Nat.eqb_spec i k) as [->|]; [|reflexivity]. apply shift_add. }
  rewrite A by lia. reflexivity.
Qed.

(** ** Histories *)
Definition convert_call (k : call) : call := match k with CallFit fs m cv => CallFit fs m cv | CallEval f xs h cv => CallEval f (map (unit 1 (b f)) xs) h cv end.
Definition features_in (k : call) : Prop := match k with CallFit fs _ _ => forall f, In f fs -> (f < D)%nat | CallEval f _ _ _ => (f < D)%nat end.
Variables E0 E0' : option Mat.
Hypothesis KIND : default_method c = default_method c' /\ forall m, method_allowed c m = method_allowed c' m.
Hypothesis FITS : forall f m, (f < D)%nat -> ALEHist.pfit c' E0' f m = rmap (shift_params (b f)) (ALEHist.pfit c E0 f m).
Hypothesis ENDS : forall f, (f < D)%nat -> below (b f) (c_mins c)@f /\ below (b f) (c_maxs c)@f.
Definition shift_fe (f : nat) (v : ale_params * option Qc) : ale_params * option Qc := (shift_params (b f) (fst v), snd v).
Record conv (st st' : state) : Prop := {
  cv_e : eff_ok c E0 st; cv_e' : eff_ok c' E0' st';
  cv_fe : forall f, st_fe st' f = option_map (shift_fe f) (st_fe st f); cv_args : st_args st' = st_args st; cv_fitted : st_fitted st' = st_fitted st }.
Lemma norm_const_shift p f ce : (f < D)%nat -> compute_norm_const c' (shift_params (b f) p) f ce = compute_norm_const c p f ce.
Proof.
  intros H. destruct (ENDS f H) as (B1 & B2). unfold compute_norm_const. rewrite MINS, MAXS, !rescale_getn, !(getn_ok _ f 0) by lia. cbn [rmap bind].
  unfold eval_unnorm. cbn [ap_limits ap_effect ap_dx shift_params]. destruct ce; [reflexivity| |].
  - change [unit 1 (b f) (c_mins c)@f] with (map (unit 1 (b f)) [(c_mins c)@f]). now rewrite accumulated_shift by (intros x [<-|[]]; exact B1).
  - rewrite linspace_map, midpoints_shift. rewrite accumulated_shift; [reflexivity|]. intros x I. destruct B1 as (B1 & B1'), B2 as (B2 & B2'). split; [eapply midpoints_le; [| | |exact I]; auto; lia|].
    eapply (midpoints_le (unit 1 (b f) (c_mins c)@f) (unit 1 (b f) (c_maxs c)@f) 100); [lia|exact B1'|exact B2'|]. rewrite linspace_map, midpoints_shift. now apply in_map.
Qed.
Lemma conv_feature st st' f m : (f < D)%nat -> conv st st' -> snd (fit_feature c' st' f m) = rmap (shift_params (b f)) (snd (fit_feature c st f m)) /\ conv (fst (fit_feature c st f m)) (fst (fit_feature c' st' f m)).
Proof.
  intros H [A1 A2 A3 A4 A5]. destruct (fit_feature_pure c E0 st f m A1) as (P1 & Q1). destruct (fit_feature_pure c' E0' st' f m A2) as (P2 & Q2).
  split; [rewrite P1, P2; now apply FITS|]. pose proof (fit_feature_fields c st f m) as (F1 & F2 & F3). pose proof (fit_feature_fields c' st' f m) as (G1 & G2 & G3).
  constructor; auto; [intros k; now rewrite F1, G1|now rewrite F2, G2|now rewrite F3, G3].
Qed.
Lemma conv_upd st st' f v ce : conv st st' -> conv (set_fe st f v) (set_fe st' f (shift_fe f v)) /\ conv (set_fitted (set_fe st f v) f ce) (set_fitted (set_fe st' f (shift_fe f v)) f ce).
Proof.
  intros [A1 A2 A3 A4 A5]. split; constructor; try exact A1; try exact A2; cbn [st_fe st_args st_fitted set_fe set_fitted]; try congruence; intros k; unfold upd; destruct (Nat.eqb_spec k f) as [->|]; auto.
Qed.
Lemma conv_one st st' f m ce : (f < D)%nat -> conv st st' -> snd (fit_one c' st' f m ce) = snd (fit_one c st f m ce) /\ conv (fst (fit_one c st f m ce)) (fst (fit_one c' st' f m ce)).
Proof.
  intros H A. destruct (conv_feature st st' f m H A) as (R & B). unfold fit_one.
  destruct (fit_feature c st f m) as (s1 & r1), (fit_feature c' st' f m) as (s2 & r2). cbn [fst snd] in R, B. subst r2.
  destruct r1 as [p|e]; cbn [rmap bind]; [|split; [reflexivity|exact B]].
  destruct (conv_upd s1 s2 f (p, None) ce B) as (B1 & _). destruct ce.
  - split; [reflexivity|]. exact (proj2 (conv_upd _ _ f (p, Some EMPTY_SYMBOL) NoCent B1)).
  - rewrite norm_const_shift by exact H. destruct (compute_norm_const c p f ZeroStart) as [z|e]; (split; [reflexivity|]); [exact (proj2 (conv_upd _ _ f (p, Some z) ZeroStart B1))|exact B1].
  - rewrite norm_const_shift by exact H. destruct (compute_norm_const c p f ZeroIntegral) as [z|e]; (split; [reflexivity|]); [exact (proj2 (conv_upd _ _ f (p, Some z) ZeroIntegral B1))|exact B1].
Qed.
Lemma conv_loop m ce fs : (forall f, In f fs -> (f < D)%nat) -> forall st st', conv st st' -> snd (fit_loop c' st' fs m ce) = snd (fit_loop c st fs m ce) /\ conv (fst (fit_loop c st fs m ce)) (fst (fit_loop c' st' fs m ce)).
Proof.
  induction fs as [|f fs IH]; intros HF st st' A; [split; [reflexivity|exact A]|]. cbn [fit_loop]. destruct (conv_one st st' f m ce (HF f (or_introl eq_refl)) A) as (R & B).
  destruct (fit_one c st f m ce) as (s1 & r1), (fit_one c' st' f m ce) as (s2 & r2). cbn [fst snd] in R, B. subst r2. destruct r1; [apply IH; [|exact B]; intros k I; apply HF; now right|split; [reflexivity|exact B]].
Qed.
Lemma conv_fit st st' fs m cv : (forall f, In f fs -> (f < D)%nat) -> conv st st' -> snd (fit c' st' fs m cv) = snd (fit c st fs m cv) /\ conv (fst (fit c st fs m cv)) (fst (fit c' st' fs m cv)).
Proof.
  intros HF A. unfold fit. destruct KIND as (_ & MO). rewrite <- MO. destruct (method_allowed c m); [|split; [reflexivity|exact A]].
  destruct (prep_cent cv); [now apply conv_loop|split; [reflexivity|exact A]].
Qed.
Lemma conv_eval_fitted rt st st' f xs het ce : (f < D)%nat -> (forall x, In x xs -> below (b f) x) -> conv st st' -> eval_fitted c' rt st' f (map (unit 1 (b f)) xs) het ce = eval_fitted c rt st f xs het ce.
Proof.
  intros H B A. unfold eval_fitted. rewrite MINS, MAXS, !rescale_getn, !(getn_ok _ f 0) by lia. cbn [rmap bind]. rewrite shift_ltb. destruct (_ <? _); cbn [assert_ bind]; [|reflexivity].
  rewrite (cv_fe _ _ A). destruct (st_fe st f) as [(p & nc)|]; [|reflexivity]. cbn [option_map shift_fe fst snd]. unfold eval_unnorm, eval_heter. cbn [ap_limits ap_effect ap_dx ap_var shift_params].
  now rewrite !accumulated_shift by exact B.
Qed.
Lemma conv_eval_state rt st st' f xs het cv : (f < D)%nat -> conv st st' -> conv (fst (eval c rt st f xs het cv)) (fst (eval c' rt st' f (map (unit 1 (b f)) xs) het cv)) /\
  ((forall x, In x xs -> below (b f) x) -> snd (eval c' rt st' f (map (unit 1 (b f)) xs) het cv) = snd (eval c rt st f xs het cv)).
Proof.
  intros H A. unfold eval. destruct (prep_cent cv) as [ce|e]; [|split; [exact A|reflexivity]].
  assert (RE : refit c' st' f ce = refit c st f ce).
  { unfold refit. rewrite DATA, (cv_fitted _ _ A), (cv_args _ _ A). reflexivity. }
  rewrite RE.
  destruct (refit c st f ce) as [[|]|e]; [|split; [exact A|intros B; now apply conv_eval_fitted]|split; [exact A|reflexivity]].
  destruct KIND as (DE & _). rewrite <- DE. assert (HF : forall k, In k [f] -> (k < D)%nat) by (intros k [->|[]]; exact H). destruct (conv_fit st st' [f] (default_method c) cv HF A) as (R & B).
  destruct (fit c st [f] (default_method c) cv) as (s1 & r1), (fit c' st' [f] (default_method c) cv) as (s2 & r2). cbn [fst snd] in R, B. subst r2.
  destruct r1; (split; [exact B|]); [intros BB; now apply conv_eval_fitted|reflexivity].
Qed.
Lemma conv_run rt ks : Forall features_in ks -> forall st st', conv st st' -> conv (run c rt st ks) (run c' rt st' (map convert_call ks)).
Proof.
  unfold run. induction 1 as [|k ks Hk _ IH]; intros st st' A; [exact A|]. cbn [fold_left map]. apply IH. destruct k; simpl in *; [now apply conv_fit|now apply conv_eval_state].
Qed.
Lemma conv_answers rt ks f xs het cv : Forall features_in ks -> (f < D)%nat -> (forall x, In x xs -> below (b f) x) ->
  snd (eval c' rt (run c' rt (fresh E0') (map convert_call ks)) f (map (unit 1 (b f)) xs) het cv) = snd (eval c rt (run c rt (fresh E0) ks) f xs het cv).
Proof. intros HK Hf B. apply conv_eval_state; [exact Hf| |exact B]. apply conv_run; [exact HK|]. constructor; try reflexivity; unfold eff_ok; [destruct (c_kind c)|destruct (c_kind c')]; auto. Qed.
End Objects.
