(** FloatLabel: the search for subregions in binary64 with the labels of one categorical feature recoded. *)
From Coq Require Import Reals.
From Flocq Require Import Core.
From Flocq Require Import IEEE754.BinarySingleNaN.
From Verif Require Import Base Numpy Utils FloatModel FloatMean FloatVar FloatDer FloatPDP FloatAdapt FloatRegion FloatRegionPDP FloatRegionALE FloatOpp FloatOppALE FloatOppAll FloatAsk FloatRegionPDPProofs FloatTree FloatRecode.
Open Scope nat_scope.

(** the row whose label in column k is replaced by its code; its effects stay *)
Definition relabel (code : b64 -> b64) (k : nat) (r : row64) : row64 := (recode code k (fst r), snd r).
(** the code keeps every comparison between the labels *)
Definition keeps_labels (code : b64 -> b64) (l : list b64) : Prop :=
  forall a b, In a l -> In b l -> Bltb (code a) (code b) = Bltb a b /\ Beqb (code a) (code b) = Beqb a b.
(** the same split, its position being a code when it is a split on column k *)
Definition relabelled_split (code : b64 -> b64) (k : nat) (s s' : split64) : Prop :=
  s64_feature s' = s64_feature s /\ s64_pos s' = (if Nat.eqb (s64_feature s) k then code (s64_pos s) else s64_pos s) /\ s64_type s' = s64_type s /\ s64_nof s' = s64_nof s /\
  s64_heter s' = s64_heter s /\ s64_drop s' = s64_drop s /\ s64_wheter s' = s64_wheter s.
(** the same search over the relabelled dataset, with another heterogeneity *)
Definition with_labels (g : regions64) (h : list row64 -> res b64) (code : b64 -> b64) (k : nat) : regions64 :=
  mkRegions64 h (g64_sum g) (map (relabel code k) (g64_rows g)) (g64_type g) (g64_foc g) (g64_foc_types g) (g64_cat_limit g) (g64_min_points g) (g64_nof_splits g)
    (g64_max_levels g) (g64_thres g) (g64_small g) (g64_split_cat g).

Lemma beqb_nan (a : b64) : Beqb a a = negb (is_nan a).
Proof. destruct a as [[]|[]| |[] m e B]; try reflexivity; unfold Beqb; cbn; now rewrite ?Z.compare_refl, ?Pos.compare_refl, ?Pos.compare_cont_refl. Qed.
Lemma is_nan_eq (a : b64) : is_nan a = true -> a = fnan.
Proof. destruct a; try discriminate. reflexivity. Qed.
Lemma mapM_map {A B} (F F' : A -> res B) (G : A -> B -> B) l : (forall a, In a l -> F' a = (y <- F a ;; Ok (G a y))) ->
  mapM F' l = (ys <- mapM F l ;; Ok (map (fun q => G (fst q) (snd q)) (combine l ys))).
Proof.
  induction l as [|a l IH]; intros H; [reflexivity|]. cbn [mapM]. rewrite H, IH by auto with datatypes. destruct (F a); [|reflexivity]. cbn [bind]. destruct (mapM F l); reflexivity.
Qed.
Lemma mapM_in2 {A B} (F : A -> res B) l ys : mapM F l = Ok ys -> Forall2 (fun a y => F a = Ok y) l ys.
Proof.
  revert ys. induction l as [|a l IH]; intros ys H; cbn [mapM] in H; [apply ok_inj in H; subst; constructor|].
  destruct (F a) as [y|] eqn:E; [|discriminate H]. cbn [bind] in H. destruct (mapM F l) as [zs|]; [|discriminate H]. cbn [bind] in H. apply ok_inj in H. subst ys. constructor; [exact E|now apply IH].
Qed.
Lemma uinsert_in a l x : In x (uinsert64 a l) -> x = a \/ In x l.
Proof.
  induction l as [|b l IH]; cbn [uinsert64]; [intros [<-|[]]; auto|]. destruct (Bltb a b); [intros [<-|H]; auto|]. destruct (Beqb a b); [auto|]. intros [<-|H]; [right; now left|]. destruct (IH H); auto. right. now right.
Qed.
Lemma unique_in l x : In x (unique64 l) -> In x l.
Proof. induction l as [|a l IH]; [auto|]. unfold unique64 in *. cbn [fold_right]. intros H. apply uinsert_in in H as [->|H]; [now left|right; auto]. Qed.

Section Labels.
  Variables (code : b64 -> b64) (V : list b64).
  Hypothesis K : keeps_labels code V.
  Lemma nan_code a : In a V -> is_nan (code a) = is_nan a.
  Proof using K. intros H. destruct (K a a H H) as [_ E]. rewrite !beqb_nan in E. now destruct (is_nan a), (is_nan (code a)). Qed.
  Lemma code_nan : In fnan V -> code fnan = fnan.
  Proof using K. intros H. apply is_nan_eq. now rewrite nan_code. Qed.
  Lemma uinsert_code a l : In a V -> (forall x, In x l -> In x V) -> uinsert64 (code a) (map code l) = map code (uinsert64 a l).
  Proof using K.
    intros Ha. induction l as [|b l IH]; intros Hl; [reflexivity|]. cbn [map uinsert64]. destruct (K a b Ha ltac:(apply Hl; now left)) as [-> ->]. destruct (Bltb a b); [reflexivity|]. destruct (Beqb a b); [reflexivity|].
    cbn [map]. now rewrite IH by auto with datatypes.
  Qed.
  Lemma unique_code l : (forall x, In x l -> In x V) -> unique64 (map code l) = map code (unique64 l).
  Proof using K.
    induction l as [|a l IH]; intros Hl; [reflexivity|]. unfold unique64 in *. cbn [map fold_right]. rewrite IH by auto with datatypes. apply uinsert_code; [apply Hl; now left|].
    intros x Hx. apply (unique_in l) in Hx. auto with datatypes.
  Qed.
  Lemma numbers_code l : (forall x, In x l -> In x V) -> filter (fun v => negb (is_nan v)) (map code l) = map code (filter (fun v => negb (is_nan v)) l).
  Proof using K. induction l as [|a l IH]; intros Hl; [reflexivity|]. cbn [map filter]. rewrite nan_code, IH by auto with datatypes. now destruct (is_nan a). Qed.
  Lemma exists_code l : (forall x, In x l -> In x V) -> existsb is_nan (map code l) = existsb is_nan l.
  Proof using K. induction l as [|a l IH]; intros Hl; [reflexivity|]. cbn [map existsb]. now rewrite nan_code, IH by auto with datatypes. Qed.
  Lemma exists_nan l : existsb is_nan l = true -> In fnan l.
  Proof. intros H. apply existsb_exists in H as (a & I & N). now rewrite <- (is_nan_eq a N). Qed.
  Lemma cat_code : find_positions_cat64 (map code V) = map code (find_positions_cat64 V).
  Proof using K.
    unfold find_positions_cat64. rewrite numbers_code, exists_code, map_app by auto. rewrite unique_code by (intros x H; now apply filter_In in H as [H _]). f_equal.
    destruct (existsb is_nan V) eqn:E; [|reflexivity]. cbn [map]. now rewrite code_nan by now apply exists_nan.
  Qed.
  Lemma cat_in p : In p (find_positions_cat64 V) -> In p V.
  Proof.
    unfold find_positions_cat64. intros H. apply in_app_iff in H as [H|H]; [apply unique_in in H; now apply filter_In in H as [H _]|]. destruct (existsb is_nan V) eqn:E; [|destruct H]. destruct H as [<-|[]]. now apply exists_nan.
  Qed.
End Labels.

Section Search.
  Variables (g : regions64) (h : list row64 -> res b64) (code : b64 -> b64) (k : nat).
  Notation V := (map (feat64 k) (g64_rows g)).
  Notation g' := (with_labels g h code k).
  Definition relabelled_row (r r' : row64) : Prop := In r (g64_rows g) /\ r' = relabel code k r.
  Notation R := relabelled_row.
  Hypothesis K : keeps_labels code V.
  Hypothesis CAT : forall t, In (k, t) (combine (g64_foc g) (g64_foc_types g)) -> t = Cat.
  Hypothesis HH : forall x x', Forall2 R x x' -> h x' = g64_heter g x.
  Definition cd (f : nat) (v : b64) : b64 := if Nat.eqb f k then code v else v.
  Lemma rows_r : Forall2 R (g64_rows g) (map (relabel code k) (g64_rows g)).
  Proof. assert (H : forall X, (forall r, In r X -> In r (g64_rows g)) -> Forall2 R X (map (relabel code k) X)); [|now apply H]. induction X as [|r X IH]; intros H; constructor; [split; auto with datatypes|apply IH; auto with datatypes]. Qed.
  Lemma col_r f r r' : R r r' -> feat64 f r' = cd f (feat64 f r).
  Proof using K.
    intros [Hr ->]. unfold feat64, relabel, recode, cd. cbn [fst]. destruct (Nat.lt_ge_cases k (length (fst r))) as [L|L].
    - destruct (Nat.eqb_spec f k) as [->|N]; [now apply updn_in|]. rewrite list_updn_nth by exact L. now rewrite (proj2 (Nat.eqb_neq f k) N).
    - rewrite updn_out by exact L. destruct (Nat.eqb_spec f k) as [->|N]; [|reflexivity]. rewrite nth_overflow by exact L. symmetry. apply (code_nan code V K). apply in_map_iff. exists r. split; [|exact Hr]. unfold feat64. now apply nth_overflow.
  Qed.
  Definition fair (f : nat) (p : b64) (t : ftype) : Prop := f = k -> t = Cat /\ In p V.
  Lemma sides_r f p t r r' : fair f p t -> R r r' -> goes_left64 t p (feat64 f r) = goes_left64 t (cd f p) (feat64 f r') /\ goes_right64 t p (feat64 f r) = goes_right64 t (cd f p) (feat64 f r').
  Proof using K.
    intros F Q. rewrite (col_r f r r' Q). unfold cd. destruct (Nat.eqb_spec f k) as [E|N]; [|auto]. destruct (F E) as [-> Ip]. subst f. cbn [goes_left64 goes_right64].
    assert (Iv : In (feat64 k r) V) by (apply in_map, (proj1 Q)). destruct (K _ _ Iv Ip) as [_ ->]. auto.
  Qed.
  Lemma split_all_l xs xs' f p t : fair f p t -> Forall2 (Forall2 R) xs xs' -> Forall2 (Forall2 R) (split_all64 xs f p t) (split_all64 xs' f (cd f p) t).
  Proof using K.
    intros F H. unfold split_all64, split_dataset64. induction H as [|x x' xs xs' X H IH]; [constructor|]. cbn [flat_map]. apply app2'; [|exact IH].
    constructor; [|constructor; [|constructor]]; (apply filter2; [|exact X]); intros r r' Q; now apply sides_r.
  Qed.
  Lemma heters_l xs xs' : Forall2 (Forall2 R) xs xs' -> mapM h xs' = mapM (g64_heter g) xs.
  Proof using HH. induction 1 as [|x x' xs xs' X H IH]; [reflexivity|]. cbn [mapM]. now rewrite (HH x x' X), IH. Qed.
  Lemma evaluate_l xs xs' before f p t : fair f p t -> Forall2 (Forall2 R) xs xs' -> evaluate64 g' xs' before f (cd f p) t = evaluate64 g xs before f p t.
  Proof using K HH. intros F H. unfold evaluate64. cbn zeta. cbn [with_labels g64_heter g64_sum]. pose proof (split_all_l xs xs' f p t F H) as Q. now rewrite (heters_l _ _ Q), (lengths_r _ _ _ Q). Qed.
  Lemma positions_l f t : In (f, t) (combine (g64_foc g) (g64_foc_types g)) -> positions64 g' f t = (ps <- positions64 g f t ;; Ok (map (cd f) ps)) /\ (forall ps p, positions64 g f t = Ok ps -> In p ps -> fair f p t).
  Proof using K CAT.
    intros I. assert (E : map (feat64 f) (map (relabel code k) (g64_rows g)) = map (cd f) (map (feat64 f) (g64_rows g))).
    { rewrite !map_map. apply map_ext_in. intros r Hr. apply col_r. split; auto. }
    unfold positions64. cbn [with_labels g64_rows g64_nof_splits]. rewrite E. unfold cd, fair. destruct (Nat.eqb_spec f k) as [->|N].
    - pose proof (CAT t I) as ->. cbn [bind]. change (map (fun v => code v) V) with (map code V). rewrite (cat_code code V K). split; [reflexivity|]. intros ps p Q. apply ok_inj in Q. subst ps. intros Hp _. split; [reflexivity|]. now apply cat_in.
    - rewrite map_id. split; [|intros; contradiction]. destruct t; [cbn [bind]; now rewrite map_id|]. destruct (find_positions_cont64 _ _); [cbn [bind]; now rewrite map_id|reflexivity].
  Qed.
  Definition cell (f : nat) (c : b64 * (b64 * b64)) : b64 * (b64 * b64) := (cd f (fst c), snd c).
  Definition tabled (tbl : list (list (b64 * (b64 * b64)))) : list (list (b64 * (b64 * b64))) :=
    map (fun q => map (cell (fst (fst q))) (snd q)) (combine (combine (g64_foc g) (g64_foc_types g)) tbl).
  Lemma combine_cd f ps : forall n, combine (seq n (length (map (cd f) ps))) (map (cd f) ps) = map (fun jp => (fst jp, cd f (snd jp))) (combine (seq n (length ps)) ps).
  Proof. induction ps as [|p ps IH]; intros n; [reflexivity|]. cbn [map length seq combine]. now rewrite IH. Qed.
  Lemma mapM_cell {A} (F F' : A -> res (b64 * (b64 * b64))) c l : (forall a, In a l -> F' a = (y <- F a ;; Ok (c y))) -> mapM F' l = (ys <- mapM F l ;; Ok (map c ys)).
  Proof. induction l as [|a l IH]; intros H; [reflexivity|]. cbn [mapM]. rewrite H, IH by auto with datatypes. destruct (F a); [|reflexivity]. cbn [bind]. destruct (mapM F l); reflexivity. Qed.
  Lemma mapM_comp {A B C} (u : A -> B) (F : B -> res C) l : mapM F (map u l) = mapM (fun a => F (u a)) l.
  Proof. induction l as [|a l IH]; [reflexivity|]. cbn [map mapM]. now rewrite IH. Qed.
  Lemma table_l xs xs' before : Forall2 (Forall2 R) xs xs' -> table64 g' xs' before = (tbl <- table64 g xs before ;; Ok (tabled tbl)).
  Proof using K CAT HH.
    intros H. unfold table64, tabled. cbn [with_labels g64_foc g64_foc_types].
    apply (mapM_map (fun ft => ps <- positions64 g (fst ft) (snd ft) ;; mapM _ _) _ (fun ft row => map (cell (fst ft)) row)). intros [f t] I. cbn [fst snd].
    destruct (positions_l f t I) as [-> F]. destruct (positions64 g f t) as [ps|]; [|reflexivity]. cbn [bind]. rewrite combine_cd, mapM_comp. apply mapM_cell. intros [j p] J. cbn [fst snd].
    apply in_combine_r in J. rewrite (evaluate_l xs xs' before f p t (F ps p eq_refl J) H). destruct (evaluate64 g xs before f p t) as [v|]; [|reflexivity]. cbn [bind]. change (width64 g') with (width64 g). destruct (Nat.ltb j (width64 g)); reflexivity.
  Qed.
  Lemma drops_l tbl : length tbl = length (combine (g64_foc g) (g64_foc_types g)) -> flat_drops64 (width64 g) (tabled tbl) = flat_drops64 (width64 g) tbl.
  Proof.
    unfold tabled, flat_drops64. generalize (combine (g64_foc g) (g64_foc_types g)) as l. induction tbl as [|row tbl IH]; intros [|a l] L; try discriminate L; [reflexivity|]. cbn [combine map flat_map fst snd]. rewrite IH by (cbn in L; lia).
    rewrite map_length, map_map. reflexivity.
  Qed.
  Lemma getn_combine {A B} (l : list A) (m : list B) i a b : getn l i = Ok a -> getn m i = Ok b -> nth_error (combine l m) i = Some (a, b).
  Proof.
    unfold getn. revert m i. induction l as [|x l IH]; intros m i; [destruct i; discriminate|]. destruct m as [|y m]; [destruct i; discriminate|]. destruct i as [|i]; cbn [nth_error combine]; [|apply IH].
    intros H1 H2. apply ok_inj in H1, H2. congruence.
  Qed.
  Lemma forall2_nth {A B} (Q : A -> B -> Prop) l m i a b : Forall2 Q l m -> nth_error l i = Some a -> nth_error m i = Some b -> Q a b.
  Proof. intros H. revert i. induction H as [|x y l m X H IH]; intros [|i]; cbn [nth_error]; try discriminate; [congruence|apply IH]. Qed.
  Lemma single_l xs xs' before : Forall2 (Forall2 R) xs xs' ->
    alike (fun s s' => relabelled_split code k s s' /\ fair (s64_feature s) (s64_pos s) (s64_type s)) (single_level64 g xs before) (single_level64 g' xs' before).
  Proof using K CAT HH.
    intros H. unfold single_level64. rewrite (table_l xs xs' before H). change (width64 g') with (width64 g). cbn [with_labels g64_foc g64_foc_types g64_heter].
    destruct (table64 g xs before) as [tbl|] eqn:ET; [|reflexivity]. cbn [bind]. unfold table64 in ET. apply mapM_in2 in ET. rewrite (drops_l tbl) by exact (len2 _ _ _ ET).
    apply alike_bind_eq. intros i0 _. cbn zeta. apply alike_bind_eq. intros f EF. apply alike_bind_eq. intros t EY. set (i := (i0 / width64 g)%nat) in *.
    pose proof (getn_combine _ _ _ _ _ EF EY) as EC. assert (ER : getn (tabled tbl) i = (row <- getn tbl i ;; Ok (map (cell f) row))).
    { unfold tabled, getn. rewrite nth_error_map. destruct (nth_error tbl i) as [row|] eqn:E.
      - assert (G1 : getn tbl i = Ok row) by (unfold getn; now rewrite E). assert (G2 : getn (combine (g64_foc g) (g64_foc_types g)) i = Ok (f, t)) by (unfold getn; now rewrite EC). rewrite (getn_combine _ _ _ _ _ G2 G1). reflexivity.
      - exfalso. apply nth_error_None in E. assert (Q : nth_error (combine (g64_foc g) (g64_foc_types g)) i <> None) by congruence. apply nth_error_Some in Q. pose proof (len2 _ _ _ ET). lia. }
    rewrite ER. destruct (getn tbl i) as [row|] eqn:EW; [|reflexivity]. cbn [bind].
    assert (EJ : getn (map (cell f) row) (i0 mod width64 g) = (c <- getn row (i0 mod width64 g) ;; Ok (cell f c))) by (unfold getn; rewrite nth_error_map; now destruct (nth_error row _)).
    rewrite EJ. destruct (getn row (i0 mod width64 g)) as [c|] eqn:EG; [|reflexivity]. cbn [bind cell fst snd].
    assert (F : fair f (fst c) t).
    { assert (NW : nth_error tbl i = Some row) by (unfold getn in EW; destruct (nth_error tbl i); [apply ok_inj in EW; congruence|discriminate EW]). pose proof (forall2_nth _ _ _ _ _ _ ET EC NW) as Q. cbn [fst snd] in Q.
      destruct (positions_l f t (nth_error_In _ _ EC)) as [_ P]. destruct (positions64 g f t) as [ps|]; [|discriminate Q]. cbn [bind] in Q. apply mapM_in2 in Q. apply getn_in in EG. apply (P ps _ eq_refl).
      clear - Q EG. remember (combine (seq 0 (length ps)) ps) as l eqn:El. assert (Il : forall jp, In jp l -> In (snd jp) ps) by (intros [j p] J; subst l; now apply in_combine_r in J). clear El.
      induction Q as [|jp y l row X Q IH]; [destruct EG|]. destruct EG as [->|EG]; [|apply IH; auto with datatypes]. destruct (evaluate64 _ _ _ _ _ _) as [v|]; [|discriminate X]. cbn [bind] in X. destruct (Nat.ltb _ _); [|discriminate X]. apply ok_inj in X. subst c. cbn [fst]. apply Il. now left. }
    pose proof (split_all_l xs xs' f (fst c) t F H) as Q. rewrite (heters_l _ _ Q), (lengths_r _ _ _ Q). apply alike_bind_eq. intros sub _. cbn. split; [|exact F]. repeat split.
  Qed.
  Lemma levels_l n : forall xs xs' before, Forall2 (Forall2 R) xs xs' -> alike (Forall2 (relabelled_split code k)) (search_levels64 g n xs before) (search_levels64 g' n xs' before).
  Proof using K CAT HH.
    induction n as [|n IH]; intros xs xs' before H; [constructor|]. cbn [search_levels64]. change (g64_min_points g') with (g64_min_points g).
    assert (existsb (fun x => Nat.ltb (length x) (g64_min_points g)) xs' = existsb (fun x => Nat.ltb (length x) (g64_min_points g)) xs) as ->.
    { clear IH. induction H as [|x x' xs xs' X H IH]; cbn [existsb]; [reflexivity|]. now rewrite (len2 _ _ _ X), IH. }
    destruct (existsb _ xs); [constructor|]. eapply alike_bind; [apply (single_l xs xs' before H)|]. intros s s' [S1 F]. pose proof S1 as (E1 & E2 & E3 & _ & E5 & _). rewrite E1, E2, E3, E5.
    eapply alike_bind; [apply IH; exact (split_all_l xs xs' _ _ _ F H)|]. intros r r' Q. cbn. constructor; assumption.
  Qed.
  Lemma valid_l thres ss ss' : Forall2 (relabelled_split code k) ss ss' -> forall a, Forall2 (relabelled_split code k) (valid_prefix64 thres a ss) (valid_prefix64 thres a ss').
  Proof.
    induction 1 as [|s s' ss ss' S1 H IH]; intros a; [constructor|]. cbn [valid_prefix64]. pose proof S1 as (_ & _ & _ & _ & _ & _ & E). rewrite E. destruct (valid64 _ _ _); constructor; [exact S1|apply IH].
  Qed.
  Lemma subregions_l : alike (Forall2 (relabelled_split code k)) (subregions64 g) (subregions64 g').
  Proof using K CAT HH.
    unfold subregions64. apply alike_bind with (R := fun a a' => match a, a' with None, None => True | Some p, Some p' => fst p' = fst p /\ Forall2 (relabelled_split code k) (snd p) (snd p') | _, _ => False end).
    - unfold search64. cbn [with_labels g64_type g64_split_cat g64_max_levels g64_foc g64_heter g64_rows]. rewrite (HH _ _ rows_r). assert (L := fun b => levels_l (g64_max_levels g) [g64_rows g] [map (relabel code k) (g64_rows g)] b (Forall2_cons _ _ rows_r (Forall2_nil _))).
      destruct (g64_type g), (g64_split_cat g); cbn [alike]; auto; (apply alike_bind_eq; intros _ _; apply alike_bind_eq; intros h0 _;
        eapply alike_bind; [apply L|]; intros ss ss' Q; destruct Q; cbn [alike]; [exact I|split; [reflexivity|constructor; assumption]]).
    - intros a a' Q. cbn [alike]. destruct a as [[h0 ss]|], a' as [[h0' ss']|]; cbn in Q; try contradiction; cbn [choose64]; [|constructor]. destruct Q as [-> Q]. cbn [with_labels g64_small g64_thres].
      destruct (Beqb h0 BIGM64); [constructor|]. destruct (Bltb h0 _); [constructor|]. now apply valid_l.
  Qed.
End Search.
