(** FloatTree: the search for subregions reads a row only through the features conditioned on and the heterogeneity; binary64. *)
From Coq Require Import Reals.
From Flocq Require Import Core.
From Flocq Require Import IEEE754.BinarySingleNaN.
From Verif Require Import Base Numpy Utils FloatModel FloatMean FloatVar FloatDer FloatPDP FloatAdapt FloatRegion FloatRegionPDP FloatRegionALE FloatOpp FloatOppALE FloatOppAll FloatAsk FloatRegionPDPProofs.
Open Scope nat_scope.

(** the same split, its feature being column [pos f] instead of column f *)
Definition moved_split (pos : nat -> nat) (s s' : split64) : Prop :=
  s64_feature s' = pos (s64_feature s) /\ s64_pos s' = s64_pos s /\ s64_type s' = s64_type s /\ s64_nof s' = s64_nof s /\
  s64_heter s' = s64_heter s /\ s64_drop s' = s64_drop s /\ s64_wheter s' = s64_wheter s.
(** the same search over another dataset, with another heterogeneity, the features conditioned on being the columns [pos f] *)
Definition with_data (g : regions64) (h : list row64 -> res b64) (rows : list row64) (pos : nat -> nat) : regions64 :=
  mkRegions64 h (g64_sum g) rows (g64_type g) (map pos (g64_foc g)) (g64_foc_types g) (g64_cat_limit g) (g64_min_points g) (g64_nof_splits g)
    (g64_max_levels g) (g64_thres g) (g64_small g) (g64_split_cat g).

Section Search.
  Variables (g : regions64) (h : list row64 -> res b64) (rows : list row64) (pos : nat -> nat) (R : row64 -> row64 -> Prop).
  Hypothesis COL : forall f r r', In f (g64_foc g) -> R r r' -> feat64 (pos f) r' = feat64 f r.
  Hypothesis HH : forall x x', Forall2 R x x' -> h x' = g64_heter g x.
  Hypothesis ROWS : Forall2 R (g64_rows g) rows.
  Notation g' := (with_data g h rows pos).
  Lemma split_all_r xs xs' f p t : In f (g64_foc g) -> Forall2 (Forall2 R) xs xs' -> Forall2 (Forall2 R) (split_all64 xs f p t) (split_all64 xs' (pos f) p t).
  Proof.
    intros F H. unfold split_all64, split_dataset64. induction H as [|x x' xs xs' X H IH]; [constructor|]. cbn [flat_map]. apply app2'; [|exact IH].
    constructor; [|constructor; [|constructor]]; (apply filter2; [|exact X]); intros r r' Q; now rewrite (COL f r r' F Q).
  Qed.
  Lemma heters_r xs xs' : Forall2 (Forall2 R) xs xs' -> mapM h xs' = mapM (g64_heter g) xs.
  Proof. induction 1 as [|x x' xs xs' X H IH]; [reflexivity|]. cbn [mapM]. now rewrite (HH x x' X), IH. Qed.
  Lemma lengths_r xs xs' : Forall2 (Forall2 R) xs xs' -> map (@length row64) xs' = map (@length row64) xs.
  Proof. induction 1 as [|x x' xs xs' X H IH]; [reflexivity|]. cbn [map]. now rewrite (len2 _ _ _ X), IH. Qed.
  Lemma positions_r f t : In f (g64_foc g) -> positions64 g' (pos f) t = positions64 g f t.
  Proof.
    intros F. unfold positions64. cbn [with_data g64_rows g64_nof_splits]. assert (map (feat64 (pos f)) rows = map (feat64 f) (g64_rows g)) as ->; [|reflexivity].
    symmetry. apply eq2. eapply map2; [|exact ROWS]. intros r r' Q. symmetry. now apply COL.
  Qed.
  Lemma evaluate_r xs xs' before f p t : In f (g64_foc g) -> Forall2 (Forall2 R) xs xs' -> evaluate64 g' xs' before (pos f) p t = evaluate64 g xs before f p t.
  Proof. intros F H. unfold evaluate64. cbn zeta. cbn [with_data g64_heter g64_sum]. pose proof (split_all_r xs xs' f p t F H) as K. now rewrite (heters_r _ _ K), (lengths_r _ _ K). Qed.
  Lemma mapM_on {A A' B} (p : A -> res B) (q : A' -> res B) l l' : Forall2 (fun a a' => q a' = p a) l l' -> mapM q l' = mapM p l.
  Proof. induction 1 as [|a a' l l' E H IH]; [reflexivity|]. cbn [mapM]. now rewrite E, IH. Qed.
  Lemma table_r xs xs' before : Forall2 (Forall2 R) xs xs' -> table64 g' xs' before = table64 g xs before.
  Proof.
    intros H. unfold table64. cbn [with_data g64_foc g64_foc_types]. apply mapM_on.
    assert (K : forall (foc : list nat) (ts : list ftype), (forall f, In f foc -> In f (g64_foc g)) -> Forall2 (fun a a' => In (fst a) (g64_foc g) /\ fst a' = pos (fst a) /\ snd a' = snd a) (combine foc ts) (combine (map pos foc) ts)).
    { induction foc as [|f foc IH]; intros ts I; [constructor|]. destruct ts as [|t ts]; cbn [map combine]; constructor; [cbn; auto with datatypes|apply IH; auto with datatypes]. }
    eapply forall2_impl; [|apply K; auto]. intros [f t] [f' t'] (F & E1 & E2). cbn [fst snd] in *. subst f' t'. rewrite (positions_r f t F). destruct (positions64 g f t) as [ps|]; [|reflexivity]. cbn [bind].
    apply mapM_on. apply refl2. intros [j p]. cbn [fst snd]. rewrite (evaluate_r xs xs' before f p t F H). reflexivity.
  Qed.
  Lemma getn_pos i : getn (map pos (g64_foc g)) i = bind (getn (g64_foc g) i) (fun f => Ok (pos f)).
  Proof. unfold getn. rewrite nth_error_map. now destruct (nth_error (g64_foc g) i). Qed.
  Lemma getn_in {A} (l : list A) i a : getn l i = Ok a -> In a l.
  Proof. unfold getn. destruct (nth_error l i) eqn:E; [|discriminate]. intros H. apply ok_inj in H. subst. now apply nth_error_In in E. Qed.
  Lemma single_r xs xs' before : Forall2 (Forall2 R) xs xs' ->
    alike (fun s s' => moved_split pos s s' /\ In (s64_feature s) (g64_foc g)) (single_level64 g xs before) (single_level64 g' xs' before).
  Proof.
    intros H. unfold single_level64. rewrite (table_r xs xs' before H). change (width64 g') with (width64 g). cbn [with_data g64_foc g64_foc_types g64_heter].
    apply alike_bind_eq. intros tbl _. apply alike_bind_eq. intros k _. cbn zeta. rewrite getn_pos. destruct (getn (g64_foc g) _) as [f|] eqn:EF; [|reflexivity]. cbn [bind]. apply getn_in in EF.
    apply alike_bind_eq. intros t _. apply alike_bind_eq. intros row _. apply alike_bind_eq. intros c _. pose proof (split_all_r xs xs' f (fst c) t EF H) as K. rewrite (heters_r _ _ K), (lengths_r _ _ K).
    apply alike_bind_eq. intros sub _. cbn. split; [|exact EF]. repeat split.
  Qed.
  Lemma levels_r n : forall xs xs' before, Forall2 (Forall2 R) xs xs' -> alike (Forall2 (moved_split pos)) (search_levels64 g n xs before) (search_levels64 g' n xs' before).
  Proof.
    induction n as [|n IH]; intros xs xs' before H; [constructor|]. cbn [search_levels64]. change (g64_min_points g') with (g64_min_points g).
    assert (existsb (fun x => Nat.ltb (length x) (g64_min_points g)) xs' = existsb (fun x => Nat.ltb (length x) (g64_min_points g)) xs) as ->.
    { clear IH. induction H as [|x x' xs xs' X H IH]; cbn [existsb]; [reflexivity|]. now rewrite (len2 _ _ _ X), IH. }
    destruct (existsb _ xs); [constructor|]. eapply alike_bind; [apply (single_r xs xs' before H)|]. intros s s' [S1 F]. pose proof S1 as (E1 & E2 & E3 & _ & E5 & _). rewrite E1, E2, E3, E5.
    eapply alike_bind; [apply IH; now apply split_all_r|]. intros r r' Q. cbn. constructor; assumption.
  Qed.
  Lemma valid_r thres ss ss' : Forall2 (moved_split pos) ss ss' -> forall a, Forall2 (moved_split pos) (valid_prefix64 thres a ss) (valid_prefix64 thres a ss').
  Proof.
    induction 1 as [|s s' ss ss' S1 H IH]; intros a; [constructor|]. cbn [valid_prefix64]. pose proof S1 as (_ & _ & _ & _ & _ & _ & E). rewrite E. destruct (valid64 _ _ _); constructor; [exact S1|apply IH].
  Qed.
  Lemma subregions_r : alike (Forall2 (moved_split pos)) (subregions64 g) (subregions64 g').
  Proof.
    unfold subregions64. apply alike_bind with (R := fun a a' => match a, a' with None, None => True | Some p, Some p' => fst p' = fst p /\ Forall2 (moved_split pos) (snd p) (snd p') | _, _ => False end).
    - unfold search64. cbn [with_data g64_type g64_split_cat g64_max_levels g64_foc g64_heter g64_rows]. rewrite map_length, (HH _ _ ROWS). assert (L := fun b => levels_r (g64_max_levels g) [g64_rows g] [rows] b (Forall2_cons _ _ ROWS (Forall2_nil _))).
      destruct (g64_type g), (g64_split_cat g); cbn [alike]; auto; (apply alike_bind_eq; intros _ _; apply alike_bind_eq; intros h0 _;
        eapply alike_bind; [apply L|]; intros ss ss' Q; destruct Q; cbn [alike]; [exact I|split; [reflexivity|constructor; assumption]]).
    - intros a a' Q. cbn [alike]. destruct a as [[h0 ss]|], a' as [[h0' ss']|]; cbn in Q; try contradiction; cbn [choose64]; [|constructor]. destruct Q as [-> Q]. cbn [with_data g64_small g64_thres].
      destruct (Beqb h0 BIGM64); [constructor|]. destruct (Bltb h0 _); [constructor|]. now apply valid_r.
  Qed.
End Search.

(** ** the heterogeneities of RegionalPDP, RegionalALE and RegionalRHALE *)
(** rows of data related by [R]; the effects of the instances agree on the feature *)
Definition carried (f f' : nat) (R : list b64 -> list b64 -> Prop) (r r' : row64) : Prop := R (fst r) (fst r') /\ nth f (snd r) fnan = nth f' (snd r') fnan.
Lemma carried_fst f f' R x x' : Forall2 (carried f f' R) x x' -> Forall2 R (map fst x) (map fst x').
Proof. apply map2. intros r r' [H _]. exact H. Qed.
Lemma carried_snd f f' R x x' : Forall2 (carried f f' R) x x' -> Forall2 (fun e e' => nth f e fnan = nth f' e' fnan) (map snd x) (map snd x').
Proof. apply map2. intros r r' [_ H]. exact H. Qed.
Definition pdp_moved (c : pdpheter64) (m : target64) (f : nat) : pdpheter64 :=
  mk_pdpheter64 m f (h64_lo c) (h64_hi c) (h64_min_points c) (h64_axis1 c) (h64_mean c).
Lemma pdp_heter_r c f' R m' x x' : carries (h64_feature c) f' R -> same_target (h64_feature c) f' R (h64_target c) m' -> Forall2 (carried (h64_feature c) f' R) x x' ->
  pdp_heter64 (pdp_moved c m' f') x' = pdp_heter64 c x.
Proof.
  intros C T H. unfold pdp_heter64. cbn [pdp_moved h64_min_points h64_mean]. rewrite (len2 _ _ _ H). destruct (Nat.ltb _ _); [reflexivity|].
  assert (region_points64 (pdp_moved c m' f') x' = region_points64 c x) as ->.
  { unfold region_points64. cbn [pdp_moved h64_feature]. assert (map (feat64 f') x' = map (feat64 (h64_feature c)) x) as ->; [|reflexivity]. symmetry. apply eq2. eapply map2; [|exact H].
    intros r r' [Q _]. unfold feat64. now apply (C _ _ Q). }
  destruct (region_points64 c x) as [xs|]; [|reflexivity]. cbn [bind].
  assert (pdp_eval64 (region_pdp64 (pdp_moved c m' f') x') NoCentering xs = pdp_eval64 (region_pdp64 c x) NoCentering xs) as ->; [|reflexivity].
  symmetry. apply (pdp_rel (h64_feature c) f' R C (region_pdp64 c x) (region_pdp64 (pdp_moved c m' f') x')); try reflexivity; [exact T|]. cbn. now apply (carried_fst _ _ _ _ _ H).
Qed.
Definition ale_moved (c : aleheter64) (f : nat) (fit : list row64 -> b64 -> b64 -> res params64) : aleheter64 :=
  mk_aleheter64 f (r64_min_points c) fit (r64_centering c) (r64_mean c).
Lemma ale_heter_r c f' R fit' x x' : carries (r64_feature c) f' R -> Forall2 (carried (r64_feature c) f' R) x x' -> (forall lo hi, fit' x' lo hi = r64_fit c x lo hi) ->
  ale_heter64 (ale_moved c f' fit') x' = ale_heter64 c x.
Proof.
  intros C H F. unfold ale_heter64. cbn [ale_moved r64_min_points r64_feature r64_fit r64_mean r64_centering]. rewrite (len2 _ _ _ H). destruct (Nat.ltb _ _); [reflexivity|].
  rewrite <- (limits_rel (r64_feature c) f' R C _ _ (carried_fst _ _ _ _ _ H)). destruct (axis_limits64 _ _) as [[lo hi]|]; [|reflexivity]. cbn [bind]. now rewrite F.
Qed.
