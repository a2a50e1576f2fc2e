(** FloatOppAll: negated model outputs (or effects) through RHALE's binning, eval, PDP and the search for subregions. *)
From Coq Require Import Reals.
From Flocq Require Import Core.
From Flocq Require Import IEEE754.BinarySingleNaN.
From Verif Require Import Base Numpy Utils FloatModel FloatMean FloatVar FloatPDP FloatAdapt FloatRegion FloatRegionPDP FloatRegionALE FloatOpp FloatOppALE.
Open Scope nat_scope.

(** ** the binning of RHALE *)
Section Bins.
  Variables (var : list b64 -> b64) (xs es es' : list b64) (lo hi : b64) (m : nat) (d : b64).
  Hypothesis V : forall l l', opps l l' -> var l' = var l.
  Hypothesis H : opps es es'.
  Lemma selected2 a b : opps (selected64 xs es a b) (selected64 xs es' a b).
  Proof.
    unfold selected64. eapply (map2 (fun p q => fst p = fst q /\ opp (snd p) (snd q))); [tauto|]. apply filter2; [intros ? ? [-> _]; reflexivity|].
    apply (combine2 eq opp); [apply refl2; reflexivity|exact H].
  Qed.
  Lemma bin_cost2 a b : bin_cost64 var xs es' m d a b = bin_cost64 var xs es m d a b.
  Proof. unfold bin_cost64. pose proof (selected2 a b) as P. rewrite (len2 _ _ _ P), (V _ _ P). reflexivity. Qed.
  Lemma close2 n l a i : close64 var xs es' m d n l a i = close64 var xs es m d n l a i.
  Proof. unfold close64. cbn zeta. rewrite !bin_cost2. reflexivity. Qed.
  Lemma greedy_loop2 n l todo : forall i acc, greedy_loop64 var xs es' m d n l todo i acc = greedy_loop64 var xs es m d n l todo i acc.
  Proof. induction todo as [|t IH]; intros i acc; cbn; [reflexivity|]. rewrite close2. apply IH. Qed.
  Lemma only_one2 : only_one64 es' lo hi m = only_one64 es lo hi m.
  Proof. unfold only_one64. rewrite (len2 _ _ _ H). reflexivity. Qed.
  Lemma greedy_find2 n cat : greedy_find64 var xs es' lo hi m d n cat = greedy_find64 var xs es lo hi m d n cat.
  Proof. unfold greedy_find64, greedy_merge64. cbn zeta. rewrite only_one2, greedy_loop2. reflexivity. Qed.
  Lemma cost2 K i j : cost64 var xs es' lo hi m d K i j = cost64 var xs es lo hi m d K i j.
  Proof. unfold cost64. rewrite bin_cost2. reflexivity. Qed.
  Lemma dp_column2 K prev : dp_column64 var xs es' lo hi m d K prev = dp_column64 var xs es lo hi m d K prev.
  Proof. unfold dp_column64. apply map_ext. intros j. f_equal. apply map_ext. intros i. now rewrite cost2. Qed.
  Lemma dp_columns2 K n : forall col acc, dp_columns64 var xs es' lo hi m d K n col acc = dp_columns64 var xs es lo hi m d K n col acc.
  Proof. induction n as [|n IH]; intros col acc; cbn; [reflexivity|]. rewrite dp_column2. apply IH. Qed.
  Lemma dp_find2 K cat : dp_find64 var xs es' lo hi m d K cat = dp_find64 var xs es lo hi m d K cat.
  Proof.
    unfold dp_find64, dp_limits64, dp_path64. rewrite only_one2.
    rewrite (map_ext _ _ (cost2 K 0)), dp_columns2. reflexivity.
  Qed.
End Bins.
Lemma find2 var xs es es' lo hi b : (forall l l', opps l l' -> var l' = var l) -> opps es es' ->
  find64 var xs es' lo hi b = find64 var xs es lo hi b.
Proof. intros V H. destruct b; cbn [find64]; [reflexivity|now apply greedy_find2|now apply dp_find2]. Qed.
Lemma nth2 {A} (R : A -> A -> Prop) l l' i d : Forall2 R l l' -> R d d -> R (nth i l d) (nth i l' d).
Proof. intros H D. revert i. induction H; intros [|i]; cbn; auto. Qed.
Lemma rhale_fit2 var X E E' lo hi f b : (forall l l', opps l l' -> var l' = var l) -> Forall2 opps E E' ->
  alike negated_params (rhale_fit_feature64 var X E lo hi f b) (rhale_fit_feature64 var X E' lo hi f b).
Proof.
  intros V H. unfold rhale_fit_feature64. cbn zeta.
  set (p := fun q : list b64 * list b64 => in_range64 lo hi f (fst q)).
  assert (Forall2 (fun q r => fst q = fst r /\ opps (snd q) (snd r)) (filter p (combine X E)) (filter p (combine X E'))) as D.
  { apply filter2; [intros q r [Q _]; unfold p; now rewrite Q|]. apply (combine2 eq); [apply refl2; reflexivity|exact H]. }
  assert (map fst (filter p (combine X E')) = map fst (filter p (combine X E))) as E1.
  { symmetry. apply eq2. eapply map2; [|exact D]. cbn. tauto. }
  assert (opps (col64 (map snd (filter p (combine X E))) f) (col64 (map snd (filter p (combine X E'))) f)) as E2.
  { unfold col64. rewrite !map_map. eapply map2; [|exact D]. intros q r [_ Q]. apply nth2; [exact Q|apply opp_nan]. }
  rewrite E1, (find2 var _ _ _ lo hi b V E2). apply alike_bind_eq. intros [l|] _; [|reflexivity]. now apply ale_params2.
Qed.

(** ** the Jacobian by finite differences *)
Lemma jacobian2 model model' dim X eps : (forall Y, opps (model Y) (model' Y)) ->
  alike (Forall2 opps) (compute_jacobian64 model dim X eps) (compute_jacobian64 model' dim X eps).
Proof.
  intros H. unfold compute_jacobian64. apply alike_bind with (R := Forall2 opps).
  - apply (mapM2 eq); [|apply refl2; reflexivity]. intros f ? <-. apply alike_bind with (R := opps); [apply (vzip2 opp opp opp); [intros; now apply fsub_opp|apply H|apply H]|].
    intros d d' D. cbn zeta. assert (opps (map (fun v => fdiv v eps) d) (map (fun v => fdiv v eps) d')) as Q by (eapply map2; [|exact D]; intros; now apply fdiv_opp).
    rewrite (len2 _ _ _ Q). destruct (Nat.eqb _ _); [exact Q|].
    destruct Q as [|a a' q q' A Q]; [reflexivity|destruct Q as [|? ? ? ? ? ?]; [|reflexivity]]. cbn [alike].
    induction (length X); cbn; constructor; auto.
  - intros cs cs' C. cbn [alike]. apply map_same2. intros i. eapply map2; [|exact C]. intros a b A. apply nth2; [exact A|apply opp_nan].
Qed.

(** ** means over any order *)
Lemma laid2 o l l' : opps l l' -> opp (tsum (laid o l)) (tsum (laid o l')).
Proof. intros H. induction o as [i|a IHa b IHb]; cbn; [apply nth2; [exact H|apply opp_zero]|now apply fadd_opp]. Qed.
Lemma mean2 o l l' : opps l l' -> opp (mean64 o l) (mean64 o l').
Proof. intros H. unfold mean64. rewrite (len2 _ _ _ H). apply fdiv_opp. now apply laid2. Qed.
Lemma std2 o l l' : opps l l' -> std64 o l' = std64 o l.
Proof.
  intros H. unfold std64. pose proof (mean2 o _ _ H) as M. f_equal. f_equal. symmetry. apply eq2. eapply map2; [|exact H].
  intros a b A. unfold sqdev. symmetry. apply fmul_same. now apply fsub_opp.
Qed.

(** ** PDP and DerPDP *)
(** what the objects of the negated model average *)
Definition negated_target (m m' : target64) : Prop :=
  match m, m' with
  | Outputs g, Outputs g' => forall r, opp (g r) (g' r)
  | Jacobian J, Jacobian J' => forall r, opps (J r) (J' r)
  | Differences g, Differences g' => forall r, opp (g r) (g' r)
  | _, _ => False
  end.
Definition with_target (p : pdp64) (m : target64) : pdp64 :=
  mk_pdp64 m (p64_rows p) (p64_feature p) (p64_lo p) (p64_hi p) (FloatPDP.p64_points p) (p64_axis0 p) (p64_axis1 p).
Lemma ice2 m m' f r x : negated_target m m' -> opp (ice64 m f r x) (ice64 m' f r x).
Proof.
  destruct m, m'; cbn; intros H; try contradiction; [apply H|apply nth2; [apply H|apply opp_nan]|]. apply fdiv_opp, fsub_opp; apply H.
Qed.
Lemma predict2 p m' xs : negated_target (p64_target p) m' -> Forall2 opps (predict64 p xs) (predict64 (with_target p m') xs).
Proof. intros H. unfold predict64. apply map_same2. intros x. apply map_same2. intros r. now apply ice2. Qed.
Lemma centered2 p m' c xs : negated_target (p64_target p) m' -> Forall2 opps (centered64 p c xs) (centered64 (with_target p m') c xs).
Proof.
  intros H. pose proof (fun z => predict2 p m' z H) as P.
  assert (match FloatPDP.norm_const64 p c, FloatPDP.norm_const64 (with_target p m') c with Some a, Some b => opps a b | None, None => True | _, _ => False end) as N.
  { destruct c; cbn [FloatPDP.norm_const64]; [exact I| |].
    - change (kept64 (with_target p m')) with (kept64 p). apply map_same2. intros i. apply mean2. unfold column64. eapply map2; [|apply P]. intros a b A. apply nth2; [exact A|apply opp_nan].
    - apply nth2; [apply P|constructor]. }
  unfold centered64. destruct (FloatPDP.norm_const64 p c), (FloatPDP.norm_const64 (with_target p m') c); try contradiction; [|apply P].
  eapply map2; [|apply P]. intros y y' Y. eapply map2; [|apply (combine2 opp opp); [exact Y|exact N]]. intros [a b] [a' b'] [A B]. now apply fsub_opp.
Qed.
Definition mirrored (r r' : res (list b64 * list b64)) : Prop := alike (fun a b => opps (fst a) (fst b) /\ snd b = snd a) r r'.
Lemma pdp_eval2 p m' c xs : negated_target (p64_target p) m' -> mirrored (pdp_eval64 p c xs) (pdp_eval64 (with_target p m') c xs).
Proof.
  intros H. pose proof (centered2 p m' c xs H) as C. unfold mirrored, pdp_eval64. cbn [with_target p64_lo p64_hi p64_axis1]. apply alike_bind_eq. intros _ _. cbn zeta. cbn [alike fst snd]. split.
  - eapply map2; [|exact C]. intros. now apply mean2.
  - symmetry. apply eq2. eapply map2; [|exact C]. intros. symmetry. now apply std2.
Qed.

(** ** eval of ALE and RHALE *)
(** global_effect_ale.py:105-157  eval(xs, heterogeneity=True, centering=c) after fit *)
Definition ale_eval64 (mean : nat -> order) (c : centering64) (p : params64) (lo hi : b64) (xs : list b64) : res (list b64 * list b64) :=
  k <- norm_const64 mean c p lo hi ;; passert (Bltb lo hi) ;; ys <- eval64 p k xs ;; zs <- eval_std64 p xs ;; Ok (ys, zs).
Lemma unnorm2 p q xs : negated_params p q -> alike opps (eval_unnorm64 p xs) (eval_unnorm64 q xs).
Proof. intros (L & D & _ & E & _). unfold eval_unnorm64. rewrite L, D. now apply accumulated2. Qed.
Lemma eval_std2 p q xs : negated_params p q -> eval_std64 q xs = eval_std64 p xs.
Proof. intros (L & D & _ & _ & V & _). unfold eval_std64. now rewrite L, D, V. Qed.
Definition oopp (a b : option b64) : Prop := match a, b with Some x, Some y => opp x y | None, None => True | _, _ => False end.
Lemma norm_const2 mean c p q lo hi : negated_params p q -> alike oopp (norm_const64 mean c p lo hi) (norm_const64 mean c q lo hi).
Proof.
  intros H. destruct c; cbn [norm_const64]; [exact I| |].
  - apply alike_bind with (R := opps); [now apply unnorm2|]. intros a b A. cbn. now apply mean2.
  - apply alike_bind with (R := opp); [|intros a b A; exact A]. unfold norm_start64. apply alike_bind with (R := opps); [now apply unnorm2|]. intros a b A. now apply getn2.
Qed.
Lemma ale_eval2 mean c p q lo hi xs : negated_params p q -> mirrored (ale_eval64 mean c p lo hi xs) (ale_eval64 mean c q lo hi xs).
Proof.
  intros H. unfold ale_eval64. apply alike_bind with (R := oopp); [now apply norm_const2|]. intros k k' K. apply alike_bind_eq. intros _ _.
  apply alike_bind with (R := opps); [|intros ys ys' Y; rewrite (eval_std2 _ _ xs H); apply alike_bind_eq; intros zs _; cbn; auto].
  unfold eval64. apply alike_bind with (R := opps); [now apply unnorm2|]. intros ys ys' Y. destruct k, k'; try contradiction; cbn [alike]; [|exact Y].
  eapply map2; [|exact Y]. intros. now apply fsub_opp.
Qed.

(** ** the heterogeneity of a region *)
Definition with_htarget (c : pdpheter64) (m : target64) : pdpheter64 :=
  mk_pdpheter64 m (h64_feature c) (h64_lo c) (h64_hi c) (h64_min_points c) (h64_axis1 c) (h64_mean c).
Lemma pdp_heter2 c m' data : negated_target (h64_target c) m' -> pdp_heter64 (with_htarget c m') data = pdp_heter64 c data.
Proof.
  intros H. unfold pdp_heter64. cbn [with_htarget h64_min_points h64_mean]. destruct (Nat.ltb _ _); [reflexivity|].
  change (region_points64 (with_htarget c m') data) with (region_points64 c data). destruct (region_points64 c data) as [xs|]; [|reflexivity]. cbn [bind].
  change (region_pdp64 (with_htarget c m') data) with (with_target (region_pdp64 c data) m').
  pose proof (pdp_eval2 (region_pdp64 c data) m' NoCentering xs H) as P. unfold mirrored in P.
  destruct (pdp_eval64 (region_pdp64 c data) NoCentering xs) as [[? z]|], (pdp_eval64 (with_target (region_pdp64 c data) m') NoCentering xs) as [[? z']|]; cbn in P; try contradiction; [|reflexivity].
  destruct P as [_ ->]. reflexivity.
Qed.
Definition with_fit (c : aleheter64) (fit : list row64 -> b64 -> b64 -> res params64) : aleheter64 :=
  mk_aleheter64 (r64_feature c) (r64_min_points c) fit (r64_centering c) (r64_mean c).
Lemma ale_heter2 c fit' (data data' : list row64) : map fst data' = map fst data ->
  (forall lo hi, alike negated_params (r64_fit c data lo hi) (fit' data' lo hi)) ->
  ale_heter64 (with_fit c fit') data' = ale_heter64 c data.
Proof.
  intros D H. unfold ale_heter64. cbn [with_fit r64_min_points r64_feature r64_fit r64_mean r64_centering].
  assert (@length row64 data' = @length row64 data) as L by (pose proof (f_equal (@length _) D) as Q; rewrite !map_length in Q; exact Q). rewrite L, D.
  destruct (Nat.ltb _ _); [reflexivity|]. destruct (axis_limits64 (map fst data) (r64_feature c)) as [[lo hi]|]; [|reflexivity]. cbn [bind].
  specialize (H lo hi). destruct (r64_fit c data lo hi) as [p|], (fit' data' lo hi) as [q|]; cbn in H; try contradiction; [|reflexivity]. cbn [bind].
  pose proof (norm_const2 (r64_mean c) (r64_centering c) p q lo hi H) as N.
  destruct (norm_const64 _ _ p lo hi), (norm_const64 _ _ q lo hi); cbn in N; try contradiction; [|reflexivity]. cbn [bind].
  unfold eval_heter64. destruct (Bltb lo hi); [|reflexivity]. cbn [assert_ bind]. rewrite (eval_std2 _ _ [hi] H).
  pose proof (unnorm2 p q [hi] H) as U. destruct (eval_unnorm64 p [hi]), (eval_unnorm64 q [hi]); cbn in U; try contradiction; [|now rewrite U]. cbn [bind]. now destruct (eval_std64 p [hi]).
Qed.

(** ** the search reads a row only through its data and the heterogeneity *)
Section Search.
  Variables (g : regions64) (h : list row64 -> res b64) (u : row64 -> row64).
  Hypothesis FST : forall r, fst (u r) = fst r.
  Hypothesis HH : forall x, h (map u x) = g64_heter g x.
  Definition renamed : regions64 :=
    mkRegions64 h (g64_sum g) (map u (g64_rows g)) (g64_type g) (g64_foc g) (g64_foc_types g) (g64_cat_limit g) (g64_min_points g) (g64_nof_splits g)
      (g64_max_levels g) (g64_thres g) (g64_small g) (g64_split_cat g).
  Lemma feat_u f r : feat64 f (u r) = feat64 f r.
  Proof. unfold feat64. now rewrite FST. Qed.
  Lemma filter_u p l : (forall r, p (u r) = p r) -> filter p (map u l) = map u (filter p l).
  Proof. intros P. induction l as [|r l IH]; cbn; [reflexivity|]. rewrite P, IH. now destruct (p r). Qed.
  Lemma split_all_u xs f pos t : split_all64 (map (map u) xs) f pos t = map (map u) (split_all64 xs f pos t).
  Proof.
    unfold split_all64, split_dataset64. induction xs as [|x xs IH]; [reflexivity|]. cbn [map flat_map]. rewrite map_app, IH. f_equal.
    cbn [map]. rewrite !filter_u by (intros; now rewrite feat_u). reflexivity.
  Qed.
  Lemma heters_u xs : mapM h (map (map u) xs) = mapM (g64_heter g) xs.
  Proof. induction xs as [|x xs IH]; cbn; [reflexivity|]. now rewrite HH, IH. Qed.
  Lemma lengths_u (xs : list (list row64)) : map (@length row64) (map (map u) xs) = map (@length row64) xs.
  Proof. rewrite map_map. apply map_ext. intros. apply map_length. Qed.
  Lemma positions_u f t : positions64 renamed f t = positions64 g f t.
  Proof. unfold positions64. cbn [renamed g64_rows g64_nof_splits]. rewrite map_map. rewrite (map_ext _ _ (feat_u f)). reflexivity. Qed.
  Lemma evaluate_u xs before f pos t : evaluate64 renamed (map (map u) xs) before f pos t = evaluate64 g xs before f pos t.
  Proof. unfold evaluate64. cbn zeta. cbn [renamed g64_heter g64_sum]. now rewrite split_all_u, heters_u, lengths_u. Qed.
  Lemma mapM_ext' {A B} (p q : A -> res B) l : (forall a, p a = q a) -> mapM p l = mapM q l.
  Proof. intros P. induction l as [|a l IH]; cbn; [reflexivity|]. now rewrite P, IH. Qed.
  Lemma table_u xs before : table64 renamed (map (map u) xs) before = table64 g xs before.
  Proof.
    unfold table64. cbn [renamed g64_foc g64_foc_types]. apply mapM_ext'. intros [f t]. cbn [fst snd]. rewrite positions_u.
    destruct (positions64 g f t) as [ps|]; [|reflexivity]. cbn [bind]. apply mapM_ext'. intros [j pos]. cbn [fst snd]. now rewrite evaluate_u.
  Qed.
  Lemma single_u xs before : single_level64 renamed (map (map u) xs) before = single_level64 g xs before.
  Proof.
    unfold single_level64. rewrite table_u. destruct (table64 g xs before) as [tbl|]; [|reflexivity]. cbn [bind].
    change (width64 renamed) with (width64 g). destruct (argmax64 _) as [k|]; [|reflexivity]. cbn [bind]. cbn zeta. cbn [renamed g64_foc g64_foc_types g64_heter].
    destruct (getn (g64_foc g) _) as [f|]; [|reflexivity]. cbn [bind]. destruct (getn (g64_foc_types g) _) as [t|]; [|reflexivity]. cbn [bind].
    destruct (getn tbl _) as [row|]; [|reflexivity]. cbn [bind]. destruct (getn row _) as [c|]; [|reflexivity]. cbn [bind].
    now rewrite split_all_u, heters_u, lengths_u.
  Qed.
  Lemma levels_u n : forall xs before, search_levels64 renamed n (map (map u) xs) before = search_levels64 g n xs before.
  Proof.
    induction n as [|n IH]; intros xs before; [reflexivity|]. cbn [search_levels64]. change (g64_min_points renamed) with (g64_min_points g).
    assert (existsb (fun x => Nat.ltb (length x) (g64_min_points g)) (map (map u) xs) = existsb (fun x => Nat.ltb (length x) (g64_min_points g)) xs) as E.
    { clear IH. induction xs as [|x xs IH]; cbn [map existsb]; [reflexivity|]. now rewrite map_length, IH. }
    rewrite E, single_u. destruct (existsb _ xs); [reflexivity|]. destruct (single_level64 g xs before) as [s|]; [|reflexivity]. cbn [bind]. now rewrite split_all_u, IH.
  Qed.
  Lemma subregions_u : subregions64 renamed = subregions64 g.
  Proof.
    assert (search64 renamed = search64 g) as E; [|unfold subregions64; now rewrite E].
    unfold search64. cbn [renamed g64_type g64_split_cat g64_max_levels g64_foc g64_heter g64_rows]. rewrite HH.
    change [map u (g64_rows g)] with (map (map u) [g64_rows g]).
    destruct (g64_type g), (g64_split_cat g); try reflexivity; (destruct (assert_ _); [cbn [bind]|reflexivity]);
    (destruct (g64_heter g (g64_rows g)); [cbn [bind]; now rewrite levels_u|reflexivity]).
  Qed.
End Search.
