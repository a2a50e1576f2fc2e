(** PartProofs: lemmas about the partitioning model. *)
From Verif Require Import Base Numpy Spec NumpyFacts Utils PartSpec Partition.
Open Scope Qc_scope.
Open Scope list_scope.

(** * Lists *)
Lemma mapM_Forall2 {A B} (f : A -> res B) l l' : mapM f l = Ok l' <-> Forall2 (fun a b => f a = Ok b) l l'.
Proof.
  revert l'; induction l as [|a l IH]; intros l'; simpl; split; intros H.
  - injection H as <-. constructor.
  - inversion H. reflexivity.
  - apply bind_ok in H as (b & H1 & H). apply bind_ok in H as (bs & H2 & H). injection H as <-.
    constructor; [assumption|]. now apply IH.
  - inversion H as [|? ? ? ? H1 H2]; subst. rewrite H1. simpl. apply IH in H2. rewrite H2. reflexivity.
Qed.
Lemma Forall2_nth {A B} (P : A -> B -> Prop) l l' da db : Forall2 P l l' ->
  length l = length l' /\ forall i, (i < length l)%nat -> P (nth i l da) (nth i l' db).
Proof.
  induction 1 as [|a b l l' H F [IHl IHn]]; simpl; [split; [reflexivity|intros; lia]|].
  split; [lia|]. intros [|i] Hi; [assumption|]. apply IHn. lia.
Qed.
Lemma Forall2_nth_inv {A B} (P : A -> B -> Prop) l l' da db : length l = length l' ->
  (forall i, (i < length l)%nat -> P (nth i l da) (nth i l' db)) -> Forall2 P l l'.
Proof.
  revert l'; induction l as [|a l IH]; intros [|b l'] HL H; simpl in HL; try lia; constructor.
  - apply (H O). simpl. lia.
  - apply IH; [lia|]. intros i Hi. apply (H (S i)). simpl. lia.
Qed.
Lemma Forall2_map_l {A A' B} (P : A' -> B -> Prop) (f : A -> A') l l' :
  Forall2 P (map f l) l' <-> Forall2 (fun a b => P (f a) b) l l'.
Proof.
  revert l'; induction l as [|a l IH]; intros l'; simpl; split; intros H; inversion H; subst; constructor; auto; now apply IH.
Qed.
Lemma enum_length {A} (l : list A) : length (enum l) = length l.
Proof. unfold enum. rewrite combine_length, seq_length. lia. Qed.
Lemma enum_nth {A} (l : list A) i d : (i < length l)%nat -> nth i (enum l) (0%nat, d) = (i, nth i l d).
Proof. intros H. unfold enum. rewrite combine_nth by now rewrite seq_length. now rewrite nth_seq. Qed.
Lemma flat_map_pair_length {A B} (f g : A -> B) l : length (flat_map (fun a => [f a; g a]) l) = (2 * length l)%nat.
Proof. induction l; simpl; lia. Qed.
Lemma flat_map_pair_nth {A B} (f g : A -> B) l i d db : (i < 2 * length l)%nat ->
  nth i (flat_map (fun a => [f a; g a]) l) db = (if Nat.even i then f else g) (nth (i / 2) l d).
Proof.
  revert i. induction l as [|a l IH]; intros i H; [simpl in H; lia|].
  destruct i as [|[|i]]; [reflexivity|reflexivity|].
  replace (S (S i) / 2)%nat with (S (i / 2))
    by (replace (S (S i)) with (i + 1 * 2)%nat by lia; rewrite Nat.div_add by lia; lia).
  simpl flat_map. simpl nth. simpl Nat.even. apply IH. simpl in H. lia.
Qed.
Lemma map_flat_map {A B C} (f : B -> C) (g : A -> list B) l : map f (flat_map g l) = flat_map (fun a => map f (g a)) l.
Proof. induction l as [|a l IH]; simpl; [reflexivity|]. now rewrite map_app, IH. Qed.
Lemma flat_map_map {A B C} (f : A -> B) (g : B -> list C) l : flat_map g (map f l) = flat_map (fun a => g (f a)) l.
Proof. induction l as [|a l IH]; simpl; [reflexivity|]. now rewrite IH. Qed.
Lemma flat_map_ext_in {A B} (f g : A -> list B) l : (forall a, In a l -> f a = g a) -> flat_map f l = flat_map g l.
Proof. induction l as [|a l IH]; intros H; simpl; [reflexivity|]. rewrite H by now left. rewrite IH; [reflexivity|]. intros; apply H; now right. Qed.
Lemma forallb_app_ {A} (f : A -> bool) l l' : forallb f (l ++ l') = (forallb f l && forallb f l')%bool.
Proof. induction l; simpl; [reflexivity|]. rewrite IHl. now rewrite andb_assoc. Qed.
Lemma combine_app_ {A B} (l1 l2 : list A) (m1 m2 : list B) : length l1 = length m1 ->
  combine (l1 ++ l2) (m1 ++ m2) = combine l1 m1 ++ combine l2 m2.
Proof. revert m1. induction l1 as [|a l1 IH]; intros [|b m1] H; simpl in *; try lia; [reflexivity|]. f_equal. apply IH. lia. Qed.
Lemma combine_map_l_ {A B C} (f : A -> B) (l : list A) (m : list C) :
  combine (map f l) m = map (fun p => (f (fst p), snd p)) (combine l m).
Proof. revert m; induction l as [|a l IH]; intros [|b m]; simpl; [reflexivity..|]. now rewrite IH. Qed.
Lemma combine_trunc {A B} (l : list A) (m : list B) n : (length m <= n)%nat -> combine (firstn n l) m = combine l m.
Proof.
  revert l m; induction n as [|n IH]; intros [|a l] [|b m] H; simpl in *; try reflexivity; [lia|]. f_equal. apply IH. lia.
Qed.
Lemma filter_filter_ {A} (p q : A -> bool) l : filter p (filter q l) = filter (fun a => (q a && p a)%bool) l.
Proof. induction l as [|a l IH]; simpl; [reflexivity|]. destruct (q a); simpl; [destruct (p a); simpl; now rewrite IH|assumption]. Qed.

(** * paths, regions *)
Lemma paths_S n : paths (S n) = flat_map (fun p => [p ++ [true]; p ++ [false]]) (paths n). Proof. reflexivity. Qed.
Lemma paths_length n : length (paths n) = (2 ^ n)%nat.
Proof. induction n as [|n IH]; [reflexivity|]. rewrite paths_S, flat_map_pair_length, IH. simpl. lia. Qed.
Lemma paths_len n p : In p (paths n) -> length p = n.
Proof.
  revert p; induction n as [|n IH]; intros p H.
  - destruct H as [<-|[]]. reflexivity.
  - rewrite paths_S in H. apply in_flat_map in H as (q & Hq & Hp). apply IH in Hq.
    destruct Hp as [<-|[<-|[]]]; rewrite app_length; simpl; lia.
Qed.
Lemma paths_complete n p : length p = n -> In p (paths n).
Proof.
  revert p; induction n as [|n IH]; intros p H.
  - destruct p; [now left|discriminate].
  - destruct p as [|b p _] using rev_ind; [discriminate|]. rewrite app_length in H; simpl in H.
    rewrite paths_S. apply in_flat_map. exists p. split; [apply IH; lia|]. destruct b; simpl; auto.
Qed.
Lemma inside_app cs c p b r : length p = length cs ->
  inside (cs ++ [c]) (p ++ [b]) r = (inside cs p r && Bool.eqb (satisfies c r) b)%bool.
Proof.
  intros H. unfold inside. rewrite combine_app_ by congruence. rewrite forallb_app_. simpl. now rewrite andb_true_r.
Qed.
Lemma region_app X cs c p b : length p = length cs ->
  region X (cs ++ [c]) (p ++ [b]) = filter (fun r => Bool.eqb (satisfies c r) b) (region X cs p).
Proof. intros H. unfold region. rewrite filter_filter_. apply filter_ext. intros r. now apply inside_app. Qed.
Lemma region_nil X cs : region X cs [] = X.
Proof. unfold region, inside. apply filter_all. intros; now destruct cs. Qed.
Lemma region_effects_nil X E cs : length E = length X -> region_effects X E cs [] = E.
Proof.
  intros H. unfold region_effects. rewrite filter_all by (intros; unfold inside; now destruct cs). now apply combine_map_snd.
Qed.
Lemma region_firstn X cs p n : (length p <= n)%nat -> region X (firstn n cs) p = region X cs p.
Proof. intros H. unfold region. apply filter_ext. intros r. unfold inside. now rewrite combine_trunc. Qed.
Lemma region_effects_firstn X E cs p n : (length p <= n)%nat -> region_effects X E (firstn n cs) p = region_effects X E cs p.
Proof. intros H. unfold region_effects. f_equal. apply filter_ext. intros r. unfold inside. now rewrite combine_trunc. Qed.
Lemma filter_combine {A B} (q : A -> bool) (l : list A) (m : list B) : length m = length l ->
  map fst (filter (fun p => q (fst p)) (combine l m)) = filter q l.
Proof.
  revert m; induction l as [|a l IH]; intros [|b m] H; simpl in *; try lia; [reflexivity|].
  destruct (q a); simpl; rewrite IH by lia; reflexivity.
Qed.
Lemma region_effects_length X E cs p : length E = length X -> length (region_effects X E cs p) = length (region X cs p).
Proof.
  intros H. unfold region_effects, region. rewrite <- (filter_combine (inside cs p) X E H). now rewrite !map_length.
Qed.
Lemma combine_region X E cs p : length E = length X ->
  combine (region X cs p) (region_effects X E cs p) = filter (fun q => inside cs p (fst q)) (combine X E).
Proof.
  intros H. unfold region_effects, region. rewrite <- (filter_combine (inside cs p) X E H).
  generalize (filter (fun q => inside cs p (fst q)) (combine X E)). intros l.
  induction l as [|[a b] l IH]; simpl; [reflexivity|]. now rewrite IH.
Qed.
Lemma region_effects_app X E cs c p b : length E = length X -> length p = length cs ->
  region_effects X E (cs ++ [c]) (p ++ [b]) =
  map snd (filter (fun q => Bool.eqb (satisfies c (fst q)) b) (combine (region X cs p) (region_effects X E cs p))).
Proof.
  intros HE Hp. rewrite combine_region by assumption. rewrite filter_filter_. unfold region_effects. f_equal.
  apply filter_ext. intros r. now apply inside_app.
Qed.

(** * split_dataset *)
Definition cond_of (s : split) : cond := (s_feature s, s_type s, s_position s).

Lemma mask_rows_ok (q : list Qc -> bool) (x y : Mat) : length y = length x ->
  mask_rows (map q x) y = Ok (map snd (filter (fun p => q (fst p)) (combine x y))).
Proof.
  intros H. unfold mask_rows. rewrite map_length, H, Nat.eqb_refl. f_equal.
  rewrite combine_map_l_, filter_map_comm, map_map. reflexivity.
Qed.
Lemma eqb_true_id b : Bool.eqb b true = b. Proof. now destruct b. Qed.
Lemma eqb_false_negb b : Bool.eqb b false = negb b. Proof. now destruct b. Qed.
Lemma Qcleb_negb_ltb a b : (a <=? b) = negb (b <? a).
Proof. unfold Qcltb, Qcleb. now rewrite negb_involutive. Qed.
Lemma split_masks (x : Mat) f p t :
  map (fun v => match t with Cat => v =? p | Cont => v <? p end) (col x f) = map (fun r => Bool.eqb (satisfies (f, t, p) r) true) x /\
  map (fun v => match t with Cat => negb (v =? p) | Cont => p <=? v end) (col x f) = map (fun r => Bool.eqb (satisfies (f, t, p) r) false) x.
Proof.
  unfold col. rewrite !map_map. split; apply map_ext; intros r; simpl; destruct t; rewrite ?eqb_true_id, ?eqb_false_negb; try reflexivity.
  apply Qcleb_negb_ltb.
Qed.
Lemma split_dataset_eff x j f p t : length j = length x ->
  split_dataset x (Some j) f p t =
  Ok (map snd (filter (fun q => Bool.eqb (satisfies (f, t, p) (fst q)) true) (combine x j)),
      map snd (filter (fun q => Bool.eqb (satisfies (f, t, p) (fst q)) false) (combine x j))).
Proof.
  intros H. unfold split_dataset. destruct (split_masks x f p t) as [-> ->].
  rewrite !mask_rows_ok by assumption. reflexivity.
Qed.
Lemma combine_self_snd {A} (q : A -> bool) (x : list A) : map snd (filter (fun p => q (fst p)) (combine x x)) = filter q x.
Proof. induction x as [|a x IH]; simpl; [reflexivity|]. destruct (q a); simpl; now rewrite IH. Qed.
Lemma split_dataset_data x f p t :
  split_dataset x None f p t =
  Ok (filter (fun r => Bool.eqb (satisfies (f, t, p) r) true) x, filter (fun r => Bool.eqb (satisfies (f, t, p) r) false) x).
Proof.
  unfold split_dataset. destruct (split_masks x f p t) as [-> ->].
  rewrite !mask_rows_ok by reflexivity.
  rewrite (combine_self_snd (fun r => Bool.eqb (satisfies (f, t, p) r) true)),
          (combine_self_snd (fun r => Bool.eqb (satisfies (f, t, p) r) false)). reflexivity.
Qed.
Lemma split_all_ok xs f p t :
  split_all xs f p t = Ok (flat_map (fun x => [filter (fun r => Bool.eqb (satisfies (f, t, p) r) true) x;
                                               filter (fun r => Bool.eqb (satisfies (f, t, p) r) false) x]) xs).
Proof.
  unfold split_all. erewrite mapM_ok by (intros; apply split_dataset_data).
  unfold bind. f_equal. unfold flatten_list. rewrite flat_map_map. reflexivity.
Qed.

(** The regions of one level, and their effects. *)
Definition level_regions X cs n := map (region X cs) (paths n).
Definition level_effects X (E : option Mat) cs n := option_map (fun e => map (region_effects X e cs) (paths n)) E.
Definition aligned (X : Mat) (E : option Mat) : Prop := match E with Some e => length e = length X | None => True end.

Lemma split_all_level X cs f p t :
  split_all (level_regions X cs (length cs)) f p t = Ok (level_regions X (cs ++ [(f, t, p)]) (S (length cs))).
Proof.
  rewrite split_all_ok. f_equal. unfold level_regions. rewrite flat_map_map, paths_S, map_flat_map.
  apply flat_map_ext_in. intros q Hq. apply paths_len in Hq. simpl. now rewrite !region_app.
Qed.
Lemma combine_maps {A B C} (f : A -> B) (g : A -> C) l : combine (map f l) (map g l) = map (fun a => (f a, g a)) l.
Proof. induction l; simpl; congruence. Qed.
Lemma mapM_map {A A' B} (f : A' -> res B) (h : A -> A') l : mapM f (map h l) = mapM (fun a => f (h a)) l.
Proof. induction l as [|a l IH]; simpl; [reflexivity|]. now rewrite IH. Qed.
Lemma split_effects_level X E cs f p t : aligned X E ->
  split_effects (level_regions X cs (length cs)) (level_effects X E cs (length cs)) f p t =
  Ok (level_effects X E (cs ++ [(f, t, p)]) (S (length cs))).
Proof.
  intros HA. destruct E as [e|]; [|reflexivity]. simpl in HA |- *. unfold split_all_jac.
  unfold level_regions. rewrite combine_maps, mapM_map. simpl fst; simpl snd.
  erewrite mapM_ok.
  2:{ intros q Hq. apply split_dataset_eff. now apply region_effects_length. }
  unfold bind. do 2 f_equal. unfold flatten_list. rewrite flat_map_map, map_flat_map.
  apply flat_map_ext_in. intros q Hq. apply paths_len in Hq. cbn [fst snd map]. now rewrite !region_effects_app.
Qed.
Lemma sub_heters_level h X E cs n hs :
  sub_heters h (level_regions X cs n) (level_effects X E cs n) = Ok hs <-> heterogeneities h X E cs (paths n) hs.
Proof.
  unfold heterogeneities, level_regions, level_effects, sub_heters. destruct E as [e|]; simpl.
  - rewrite combine_maps, mapM_map. apply mapM_Forall2.
  - rewrite mapM_map. apply mapM_Forall2.
Qed.

(** * Scores *)
Lemma weights_weighted pops vs : length vs = length pops ->
  exists l, vzip Qcmult (weights pops) vs = Ok l /\ sumq l = weighted pops vs.
Proof.
  intros H. eexists. split; [apply vzip_eq; unfold weights; rewrite map_length; congruence|].
  unfold weighted, weights. f_equal. rewrite combine_map_l_, map_map. reflexivity.
Qed.
Lemma vzip_mult_comm a b : length a = length b -> vzip Qcmult a b = vzip Qcmult b a.
Proof.
  intros H. rewrite !vzip_eq by congruence. f_equal. revert b H. induction a as [|x a IH]; intros [|y b] H; simpl in *; try lia; [reflexivity|].
  f_equal; [apply Qcmult_comm|apply IH; lia].
Qed.
Lemma score_ok before sub pops : length sub = (2 * length before)%nat -> length pops = length sub ->
  score before sub pops = Ok (weighted pops (drops before sub), weighted pops sub).
Proof.
  intros H1 H2. unfold score.
  assert (E : mapM (fun p : nat * Qc => a <- getn sub (2 * fst p) ;; b <- getn sub (2 * fst p + 1) ;; Ok (snd p - a, snd p - b)) (enum before)
              = Ok (map (fun k => (before@k - sub@(2 * k), before@k - sub@(2 * k + 1))) (seq 0 (length before)))).
  { apply mapM_Forall2. apply Forall2_nth_inv with (da := (0%nat, 0)) (db := (0, 0)).
    - now rewrite enum_length, map_length, seq_length.
    - rewrite enum_length. intros i Hi. rewrite enum_nth by assumption. simpl fst; simpl snd.
      rewrite (getn_ok _ _ 0) by lia. unfold bind at 1. rewrite (getn_ok _ _ 0) by lia. unfold bind.
      rewrite nth_map_in with (d := 0%nat) by now rewrite seq_length. now rewrite nth_seq. }
  rewrite E. unfold bind at 1.
  assert (F : flatten_list (map (fun k => (before@k - sub@(2 * k), before@k - sub@(2 * k + 1))) (seq 0 (length before))) = drops before sub).
  { unfold flatten_list. rewrite flat_map_map. simpl fst; simpl snd.
    apply list_ext with 0.
    - rewrite (flat_map_pair_length (fun k => before@k - sub@(2 * k)) (fun k => before@k - sub@(2 * k + 1))). unfold drops.
      rewrite map_length, !seq_length. lia.
    - rewrite (flat_map_pair_length (fun k => before@k - sub@(2 * k)) (fun k => before@k - sub@(2 * k + 1))), seq_length. intros i Hi.
      rewrite (flat_map_pair_nth (fun k => before@k - sub@(2 * k)) (fun k => before@k - sub@(2 * k + 1))) with (d := 0%nat) by now rewrite seq_length.
      unfold drops. rewrite nth_map_in with (d := 0%nat) by (rewrite seq_length; lia).
      assert (Hd : (i / 2 < length before)%nat) by (apply Nat.div_lt_upper_bound; lia).
      rewrite !nth_seq by lia. rewrite !Nat.add_0_l.
      destruct (Nat.even i) eqn:Ev.
      + apply Nat.even_spec in Ev as [m Em]. subst i.
        replace (2 * m / 2)%nat with m by (rewrite Nat.mul_comm, Nat.div_mul; lia). reflexivity.
      + assert (O : Nat.odd i = true) by (unfold Nat.odd; now rewrite Ev). apply Nat.odd_spec in O as [m Em]. subst i.
        assert (Q : ((2 * m + 1) / 2 = m)%nat) by (rewrite Nat.mul_comm, Nat.div_add_l by lia; simpl; lia).
        now rewrite !Q. }
  rewrite F.
  assert (Ld : length (drops before sub) = length pops) by (unfold drops; rewrite map_length, seq_length; congruence).
  destruct (weights_weighted pops (drops before sub) Ld) as (l1 & E1 & S1).
  destruct (weights_weighted pops sub ltac:(congruence)) as (l2 & E2 & S2).
  rewrite vzip_mult_comm by (unfold weights; rewrite map_length; congruence). rewrite E1. unfold bind at 1. rewrite E2. unfold bind. now rewrite S1, S2.
Qed.

(** * argmax *)
Lemma argmax_from_spec pre best bi l :
  (bi < length pre)%nat -> pre@bi = best -> (forall m, (m < length pre)%nat -> pre@m <= best) -> (forall m, (m < bi)%nat -> pre@m < best) ->
  let k := argmax_from best bi (length pre) l in
  (k < length (pre ++ l))%nat /\ (forall m, (m < length (pre ++ l))%nat -> (pre ++ l)@m <= (pre ++ l)@k) /\ (forall m, (m < k)%nat -> (pre ++ l)@m < (pre ++ l)@k).
Proof.
  revert pre best bi. induction l as [|a l IH]; intros pre best bi Hb E Hle Hlt; simpl.
  - rewrite app_nil_r. rewrite E. split; [assumption|]. split; assumption.
  - assert (EL : length (pre ++ [a]) = S (length pre)) by (rewrite app_length; simpl; lia).
    replace (pre ++ a :: l) with ((pre ++ [a]) ++ l) by now rewrite <- app_assoc.
    rewrite <- EL. destruct (Qcltb_spec best a) as [L|L].
    + apply IH; rewrite ?EL; try lia.
      * rewrite app_nth2, Nat.sub_diag by lia. reflexivity.
      * intros m Hm. destruct (Nat.eq_dec m (length pre)) as [->|N].
        { rewrite app_nth2, Nat.sub_diag by lia. apply Qcle_refl. }
        { rewrite app_nth1 by lia. pose proof (Hle m ltac:(lia)). qlra. }
      * intros m Hm. rewrite app_nth1 by lia. pose proof (Hle m Hm). qlra.
    + apply IH; rewrite ?EL; try lia.
      * rewrite app_nth1 by lia. assumption.
      * intros m Hm. destruct (Nat.eq_dec m (length pre)) as [->|N].
        { rewrite app_nth2, Nat.sub_diag by lia. assumption. }
        { rewrite app_nth1 by lia. apply Hle. lia. }
      * intros m Hm. rewrite app_nth1 by lia. now apply Hlt.
Qed.
Lemma argmax_spec l k : argmax l = Ok k ->
  (k < length l)%nat /\ (forall m, (m < length l)%nat -> l@m <= l@k) /\ (forall m, (m < k)%nat -> l@m < l@k).
Proof.
  destruct l as [|a l]; simpl; intros H; [discriminate|]. injection H as <-.
  apply (argmax_from_spec [a] a 0 l); [simpl; lia|reflexivity| |intros; lia].
  intros m Hm. destruct m; [apply Qcle_refl|simpl in Hm; lia].
Qed.
Lemma argmax_ok l : l <> [] -> exists k, argmax l = Ok k.
Proof. destruct l; [congruence|]. simpl. eauto. Qed.

Lemma nth_flat_map_const {A B} (f : A -> list B) w l i j d db : (forall a, In a l -> length (f a) = w) ->
  (i < length l)%nat -> (j < w)%nat -> nth (i * w + j) (flat_map f l) db = nth j (f (nth i l d)) db.
Proof.
  revert i. induction l as [|a l IH]; intros i Hw Hi Hj; [simpl in Hi; lia|]. simpl flat_map.
  pose proof (Hw a (or_introl eq_refl)) as Ha. destruct i as [|i].
  - rewrite app_nth1 by (simpl; lia). reflexivity.
  - rewrite app_nth2 by (rewrite Ha; simpl; lia).
    rewrite Ha. replace (S i * w + j - w)%nat with (i * w + j)%nat by (simpl; lia).
    simpl nth at 2. apply IH; [intros; apply Hw; now right|simpl in Hi; lia|assumption].
Qed.
Lemma flat_map_const_length {A B} (f : A -> list B) w l : (forall a, In a l -> length (f a) = w) ->
  length (flat_map f l) = (length l * w)%nat.
Proof. induction l as [|a l IH]; intros H; simpl; [reflexivity|]. rewrite app_length, IH, (H a); auto using in_eq, in_cons. Qed.
Lemma flat_drops_length w tbl : (forall r, In r tbl -> (length r <= w)%nat) -> length (flat_drops w tbl) = (length tbl * w)%nat.
Proof. intros H. apply flat_map_const_length. intros r Hr. rewrite app_length, map_length, repeat_length. specialize (H r Hr). lia. Qed.
Lemma flat_drops_nth w tbl i j : (forall r, In r tbl -> (length r <= w)%nat) -> (i < length tbl)%nat -> (j < w)%nat ->
  (flat_drops w tbl)@(i * w + j) = if Nat.ltb j (length (nth i tbl [])) then fst (nth j (nth i tbl []) (0, 0)) else - BIG_M.
Proof.
  intros H Hi Hj. unfold flat_drops. rewrite nth_flat_map_const with (w := w) (d := []); auto.
  2:{ intros r Hr. rewrite app_length, map_length, repeat_length. specialize (H r Hr). lia. }
  destruct (Nat.ltb_spec j (length (nth i tbl []))) as [L|L].
  - rewrite app_nth1 by now rewrite map_length. now rewrite nth_map_in with (d := (0, 0)).
  - rewrite app_nth2 by now rewrite map_length. rewrite map_length.
    rewrite nth_indep with (d' := - BIG_M) by (rewrite repeat_length; lia). apply nth_repeat.
Qed.
