(** FloatRegionTotal: when the search for subregions in binary64 returns at all. *)
From Coq Require Import Reals.
From Flocq Require Import Core.
From Flocq Require Import IEEE754.BinarySingleNaN.
From Verif Require Import Base Numpy NumpyFacts Utils FloatModel FloatFacts FloatGrid FloatBins FloatMean FloatAcc FloatNan FloatDPGrid FloatAdapt FloatRegion FloatRegionProofs FloatRegionSum FloatRegionTop FloatRegionMain FloatRegionPos FloatRegionMore.
From Coq Require Import Lra.
Open Scope R_scope.

Lemma mapM_total {A B} (h : A -> res B) l : (forall x, In x l -> exists y, h x = Ok y) -> exists l', mapM h l = Ok l'.
Proof.
  induction l as [|a l IH]; intros H; [exists []; reflexivity|]. destruct (H a (or_introl eq_refl)) as [b Hb]. destruct IH as [bs Hbs]; [intros x Hx; apply H; now right|]. exists (b :: bs). cbn [mapM]. rewrite Hb, Hbs. reflexivity.
Qed.
Lemma combine_seq_nth {A} (l : list A) p d : In p (combine (seq 0 (length l)) l) -> (fst p < length l)%nat /\ snd p = nth (fst p) l d.
Proof.
  intros H. apply (In_nth _ _ (0%nat, d)) in H as (n & Hn & <-). rewrite combine_length, seq_length, Nat.min_id in Hn. rewrite combine_nth by apply seq_length. rewrite seq_nth by exact Hn. cbn [fst snd]. auto.
Qed.
Lemma score_total nsum before sub ns : length sub = (2 * length before)%nat -> length ns = length sub -> exists c, score64 nsum before sub ns = Ok c.
Proof.
  intros L1 L2. unfold score64, drops64. destruct (mapM_total (fun p : nat * b64 => a <- getn sub (2 * fst p) ;; b <- getn sub (2 * fst p + 1) ;; Ok [fsub (snd p) a; fsub (snd p) b]) (combine (seq 0 (length before)) before)) as [ds D].
  { intros p Hp. destruct (combine_seq_nth before p fnan Hp) as [Hp1 _]. rewrite (nth_getn sub (2 * fst p) fnan) by lia. rewrite (nth_getn sub (2 * fst p + 1) fnan) by lia. cbn [bind]. eauto. }
  assert (DD : drops64 before sub = Ok (concat ds)) by (unfold drops64; rewrite D; reflexivity). rewrite D. cbn [bind]. destruct (drops_spec _ _ _ DD) as (LD & _ & _).
  assert (LW : length (weights64 ns) = length sub) by (unfold weights64; now rewrite map_length). unfold vzip. rewrite LD, LW, L1, !Nat.eqb_refl. cbn [bind]. eauto.
Qed.

Section Total.
Variable g : regions64.
Hypothesis SUM : sums (g64_sum g).
Hypothesis ROOM : roomy g.
Hypothesis HT : forall x, exists v, g64_heter g x = Ok v /\ fin v /\ Bsign v = false /\ val v <= 100000000.
Hypothesis LT : length (g64_foc_types g) = length (g64_foc g).
Hypothesis NF : g64_foc g <> [].
Hypothesis NR : g64_rows g <> [].
Hypothesis NS : (1 <= g64_nof_splits g)%nat.
Hypothesis CAT : forall f, In (f, Cat) (combine (g64_foc g) (g64_foc_types g)) -> (length (find_positions_cat64 (map (feat64 f) (g64_rows g))) <= width64 g)%nat.

Lemma heter_val x v : g64_heter g x = Ok v -> fin v /\ Bsign v = false /\ val v <= 100000000.
Proof. intros H. destruct (HT x) as (v' & H' & R). rewrite H in H'. injection H' as <-. exact R. Qed.
Lemma evaluate_total xs before f pos t : length before = length xs -> exists v, evaluate64 g xs before f pos t = Ok v.
Proof.
  intros L. unfold evaluate64. destruct (mapM_total (g64_heter g) (split_all64 xs f pos t)) as [sub SB]; [intros x _; destruct (HT x) as (v & V & _); eauto|]. rewrite SB. cbn [bind].
  pose proof (mapM_length _ _ _ SB) as L2. rewrite split_all_length in L2. destruct (score_total (g64_sum g) before sub (map (@length row64) (split_all64 xs f pos t))) as [c C]; [lia|rewrite map_length, split_all_length; lia|]. rewrite C. cbn [bind]. eauto.
Qed.
Lemma positions_total f t : In (f, t) (combine (g64_foc g) (g64_foc_types g)) -> exists ps, positions64 g f t = Ok ps /\ (1 <= length ps <= width64 g)%nat.
Proof.
  intros H. unfold positions64. destruct (g64_rows g) as [|r rs] eqn:R; [congruence|]. destruct t.
  - eexists. split; [reflexivity|]. split; [|now apply CAT]. unfold find_positions_cat64. cbn [map filter existsb]. destruct (is_nan (feat64 f r)) eqn:N; cbn [negb orb].
    + rewrite app_length. cbn. lia.
    + rewrite app_length. assert (G : forall a l, (1 <= length (unique64 (a :: l)))%nat). { intros a l. unfold unique64. cbn [fold_right]. generalize (fold_right uinsert64 [] l). intros [|b q]; cbn [uinsert64 length]; [lia|]. destruct (Bltb a b), (Beqb a b); cbn [length]; lia. }
      pose proof (G (feat64 f r) (filter (fun v => negb (is_nan v)) (map (feat64 f) rs))). lia.
  - unfold find_positions_cont64. cbn [map np_max64 np_min64 bind]. eexists. split; [reflexivity|]. rewrite map_length, seq_length. unfold width64. lia.
Qed.
Lemma table_total xs before : length before = length xs -> exists tbl, table64 g xs before = Ok tbl.
Proof.
  intros L. unfold table64. apply mapM_total. intros [f t] Hft. cbn [fst snd]. destruct (positions_total f t Hft) as (ps & P & LP). rewrite P. cbn [bind]. apply mapM_total. intros p Hp.
  destruct (combine_seq_nth ps p fnan Hp) as [H1 _]. destruct (evaluate_total xs before f (snd p) t L) as [v ->]. cbn [bind]. rewrite (proj2 (Nat.ltb_lt _ _)) by lia. eauto.
Qed.

Lemma flat_length w (tbl : list (list (b64 * (b64 * b64)))) : (forall r, In r tbl -> (length r <= w)%nat) -> length (flat_drops64 w tbl) = (length tbl * w)%nat.
Proof. induction tbl as [|r tbl IH]; intros W; [reflexivity|]. unfold flat_drops64 in *. cbn [flat_map length]. rewrite !app_length, map_length, repeat_length, IH by (intros; apply W; now right). specialize (W r (or_introl eq_refl)). lia. Qed.
Lemma flat_unfilled w (tbl : list (list (b64 * (b64 * b64)))) : forall i j, (forall r, In r tbl -> (length r <= w)%nat) -> (i < length tbl)%nat -> (j < w)%nat -> (length (nth i tbl []) <= j)%nat ->
  nth (i * w + j) (flat_drops64 w tbl) fnan = Bopp BIGM64.
Proof.
  induction tbl as [|r tbl IH]; intros i j W Hi Hj Hl; [cbn in Hi; lia|].
  set (p := map (fun c : b64 * (b64 * b64) => fst (snd c)) r ++ repeat (Bopp BIGM64) (w - length r)).
  assert (Lp : length p = w). { unfold p. rewrite app_length, map_length, repeat_length. specialize (W r (or_introl eq_refl)). lia. }
  change (flat_drops64 w (r :: tbl)) with (p ++ flat_drops64 w tbl). destruct i as [|i]; cbn [nth] in Hl |- *; cbn [Nat.mul Nat.add].
  - rewrite app_nth1 by lia. unfold p. rewrite app_nth2 by (rewrite map_length; exact Hl). rewrite map_length.
    assert (G : forall n m, (n < m)%nat -> nth n (repeat (Bopp BIGM64) m) fnan = Bopp BIGM64). { clear. intros n m. revert n. induction m as [|m IH]; intros n H; [lia|]. destruct n; cbn [repeat nth]; [reflexivity|]. apply IH. lia. }
    apply G. lia.
  - rewrite app_nth2 by lia. rewrite Lp. rewrite <- (IH i j); [f_equal; lia|intros; apply W; now right|cbn in Hi; lia|exact Hj|exact Hl].
Qed.

(** a level is found if some candidate of it is above the filler -BIG_M *)
Lemma single_level_total xs before f t pos sub d w : length before = length xs -> candidate64 g f t pos -> evaluate64 g xs before f pos t = Ok (sub, (d, w)) -> Bleb d (Bopp BIGM64) = false ->
  exists s, single_level64 g xs before = Ok s.
Proof.
  intros L [CI (ps & P & Hpos)] E D. unfold single_level64. destruct (table_total xs before L) as [tbl T]. rewrite T. cbn [bind]. destruct (table_rows _ _ _ _ T) as (LTB & W & ROW).
  set (ft := combine (g64_foc g) (g64_foc_types g)) in *. assert (LF : length ft = length (g64_foc g)) by (unfold ft; rewrite combine_length; lia).
  pose proof (flat_length _ _ W) as FL. apply (In_nth _ _ (0%nat, Cont)) in CI as (i' & Hi' & E'). apply (In_nth _ _ fnan) in Hpos as (j' & Hj' & Ej').
  destruct (ROW i' Hi') as (ps2 & P2 & L2 & J2). rewrite E' in P2, J2. cbn [fst snd] in P2, J2. rewrite P in P2. injection P2 as <-. destruct (J2 j' Hj') as [Jw (v' & V' & C')]. rewrite Ej' in V'. rewrite E in V'. injection V' as <-.
  destruct (flat_nth _ _ i' j' W) as [FL' FV]; [lia|lia|]. rewrite C' in FV. cbn [fst snd] in FV.
  assert (K : exists k, argmax64 (flat_drops64 (width64 g) tbl) = Ok k). { destruct (flat_drops64 (width64 g) tbl); [cbn in FL'; lia|]. cbn [argmax64]. eauto. }
  destruct K as [k K]. rewrite K. cbn [bind]. cbv zeta. destruct (argmax_spec _ _ fnan K) as (Kl & KN & KM). rewrite FL in Kl.
  assert (W0 : width64 g <> 0%nat) by lia. set (i := (k / width64 g)%nat). set (j := (k mod width64 g)%nat).
  assert (Ek : (i * width64 g + j = k)%nat) by (unfold i, j; rewrite Nat.mul_comm; symmetry; now apply Nat.div_mod). assert (Hj : (j < width64 g)%nat) by (now apply Nat.mod_upper_bound).
  assert (Hi : (i < length tbl)%nat). { unfold i. apply Nat.div_lt_upper_bound; [exact W0|lia]. }
  assert (FILL : (j < length (nth i tbl []))%nat).
  { destruct (Nat.ltb_spec j (length (nth i tbl []))); [assumption|]. exfalso. pose proof (flat_unfilled _ _ i j W Hi Hj H) as U. rewrite Ek in U. rewrite U in KM. specialize (KM eq_refl _ FL'). rewrite FV in KM. congruence. }
  rewrite (nth_getn (g64_foc g) i 0%nat) by lia. rewrite (nth_getn (g64_foc_types g) i Cont) by lia. rewrite (nth_getn tbl i [] Hi). cbn [bind]. rewrite (nth_getn _ j cell0 FILL). cbn [bind].
  destruct (mapM_total (g64_heter g) (split_all64 xs (nth i (g64_foc g) 0%nat) (fst (nth j (nth i tbl []) cell0)) (nth i (g64_foc_types g) Cont))) as [sb SB]; [intros x _; destruct (HT x) as (v & V & _); eauto|]. rewrite SB. cbn [bind]. eauto.
Qed.

(** the drop of a candidate is above -BIG_M when the exact one is by a margin *)
Lemma mval : val (Bopp BIGM64) = -100000000 /\ fin (Bopp BIGM64).
Proof. destruct (fofZ_val 100000000 ltac:(lia)) as [V F]. change BIGM64 with (fofZ 100000000). split; [rewrite B2R_Bopp; fold (val (fofZ 100000000)); rewrite V; lra|unfold fin; rewrite is_finite_Bopp; exact F]. Qed.
Lemma above xs before f t pos sub d w : length before = length xs -> (1 <= length xs)%nat -> (Z.of_nat (2 * length xs) <= 2 ^ 40)%Z -> (Z.of_nat (sumn (map (@length row64) xs)) <= 2 ^ 40)%Z ->
  (forall b, In b before -> exists x, g64_heter g x = Ok b) -> evaluate64 g xs before f pos t = Ok (sub, (d, w)) ->
  -100000000 + IZR (Z.of_nat (2 * length xs) + 4) * (bpow radix2 (-50) * 100000000 + bpow radix2 (-1074)) < exact_drop before sub (map (@length row64) (split_all64 xs f pos t)) -> Bleb d (Bopp BIGM64) = false.
Proof.
  intros L L1 R1 R2 HB E X. destruct (evaluate_parts _ _ _ _ _ _ _ _ _ E) as (M & LS & SC). set (ns := map (@length row64) (split_all64 xs f pos t)) in *.
  assert (LN : length ns = (2 * length xs)%nat) by (unfold ns; rewrite map_length; apply split_all_length).
  assert (TV : forall x v, g64_heter g x = Ok v -> tame 100000000 v). { intros x v V. destruct (heter_val _ _ V) as (F & S & B). split; [exact F|]. rewrite Rabs_pos_eq; [exact B|]. apply plus_val. split; assumption. }
  assert (TT : (Z.of_nat (total ns) <= 2 ^ 53)%Z). { unfold total. rewrite sumn_succ, LN. pose proof (split_all_count xs f pos t) as C. fold ns in C. lia. }
  destruct (score_close (g64_sum g) before sub ns d w SUM SC ltac:(lia) ltac:(lia) ltac:(lia) 100000000) as (Fd & _ & CL & _).
  - intros x Hx. destruct (HB x Hx) as [y Hy]. eapply TV; exact Hy.
  - intros x Hx. apply (In_nth _ _ fnan) in Hx as (k & Hk & <-). eapply TV. eapply (mapM_nth _ _ _ k [] fnan M). rewrite split_all_length. lia.
  - apply Rle_trans with (bpow radix2 30); [change (bpow radix2 30) with 1073741824; lra|apply bpow_le; lia].
  - exact TT.
  - lia.
  - destruct mval as [VB FB]. apply not_true_iff_false. intros N. apply fle_val in N; [|exact Fd|exact FB]. rewrite VB in N. rewrite LS in CL. apply Rabs_le_inv in CL. lra.
Qed.

Lemma weight_nonneg ns k : (k < length ns)%nat -> 0 <= weight ns k.
Proof. intros H. unfold weight, Rdiv. pose proof (total_ge ns k H). apply Rmult_le_pos; [apply IZR_le; lia|]. apply Rlt_le, Rinv_0_lt_compat, IZR_lt. lia. Qed.
Lemma tiny_eta : 0 < bpow radix2 (-1074) <= bpow radix2 (-50). Proof. split; [apply bpow_gt_0|apply bpow_le; lia]. Qed.
Lemma p50 : bpow radix2 (-50) = / 1125899906842624. Proof. cbn. lra. Qed.

Lemma root_above h0 f t pos sub d w : g64_heter g (g64_rows g) = Ok h0 -> bpow radix2 (-20) <= val h0 -> evaluate64 g [g64_rows g] [h0] f pos t = Ok (sub, (d, w)) -> Bleb d (Bopp BIGM64) = false.
Proof.
  intros H0 B E. unfold roomy in ROOM. assert (MP : (1 <= 2 ^ Z.of_nat (g64_max_levels g))%Z) by (pose proof (Z.pow_pos_nonneg 2 (Z.of_nat (g64_max_levels g))); lia).
  eapply (above [g64_rows g] [h0]); [reflexivity|cbn; lia|cbn; lia|cbn [map sumn fold_right]; lia|intros b [<-|[]]; eauto|exact E|].
  destruct (evaluate_parts _ _ _ _ _ _ _ _ _ E) as (M & LS & _). set (ns := map (@length row64) (split_all64 [g64_rows g] f pos t)). assert (LN : length ns = length sub) by (unfold ns; rewrite map_length, split_all_length; now rewrite LS).
  assert (N0 : ns <> []) by (intros N; rewrite N in LN; cbn in LN, LS; lia). pose proof (weight_sum ns N0) as WS. rewrite LN in WS.
  apply Rlt_le_trans with (val h0 - 100000000).
  - change (Z.of_nat (2 * length [g64_rows g]) + 4)%Z with 6%Z. pose proof tiny_eta. rewrite p50 in *. replace (bpow radix2 (-20)) with (/ 1048576) in B by (cbn; lra). lra.
  - unfold exact_drop. replace (val h0 - 100000000) with ((val h0 - 100000000) * rk (length sub) (weight ns) + IZR (Z.of_nat (length sub)) * 0) by (rewrite WS; ring). rewrite <- rk_lin. apply rk_le. intros k Hk. rewrite LS in Hk. cbn [length] in Hk.
    assert (K2 : (k / 2 = 0)%nat) by (apply Nat.div_small; lia). rewrite K2. cbn [nth]. assert (S1 : val (nth k sub fnan) <= 100000000). { eapply heter_val. eapply (mapM_nth _ _ _ k [] fnan M). rewrite split_all_length. cbn [length]. lia. }
    pose proof (weight_nonneg ns k ltac:(rewrite LN, LS; cbn [length]; lia)) as W0. rewrite Rplus_0_r. rewrite Rmult_comm. apply Rmult_le_compat_l; lra.
Qed.

(** cutting twice in the same way changes nothing: one part is the whole, the other is empty *)
Lemma again ys f pos t x : In x (split_all64 ys f pos t) -> split_dataset64 x f pos t = (x, []) \/ split_dataset64 x f pos t = ([], x).
Proof.
  unfold split_all64. rewrite in_flat_map. intros (y & _ & Hx). unfold split_dataset64 in *. cbv beta iota in Hx.
  assert (ALL : forall (p : row64 -> bool) l, (forall r, In r l -> p r = true) -> filter p l = l) by (clear; intros p; induction l as [|a l IH]; intros H; [reflexivity|]; cbn [filter]; rewrite (H a (or_introl eq_refl)), IH by (intros; apply H; now right); reflexivity).
  assert (NONE : forall (p : row64 -> bool) l, (forall r, In r l -> p r = false) -> filter p l = []) by (clear; intros p; induction l as [|a l IH]; intros H; [reflexivity|]; cbn [filter]; rewrite (H a (or_introl eq_refl)); apply IH; intros; apply H; now right).
  destruct Hx as [<-|[<-|[]]]; [left|right]; f_equal.
  - apply ALL. intros r Hr. now apply filter_In in Hr.
  - apply NONE. intros r Hr. apply filter_In in Hr as [_ Hr]. now apply two_sides.
  - apply NONE. intros r Hr. apply filter_In in Hr as [_ Hr]. destruct (goes_left64 t pos (feat64 f r)) eqn:G; [|reflexivity]. apply two_sides in G. congruence.
  - apply ALL. intros r Hr. now apply filter_In in Hr.
Qed.
Lemma split_all_nth xs f pos t : forall p, (p < length xs)%nat -> nth (2 * p) (split_all64 xs f pos t) [] = fst (split_dataset64 (nth p xs []) f pos t) /\ nth (2 * p + 1) (split_all64 xs f pos t) [] = snd (split_dataset64 (nth p xs []) f pos t).
Proof.
  induction xs as [|x xs IH]; intros p H; [cbn in H; lia|]. destruct p as [|p]; [split; reflexivity|]. destruct (IH p ltac:(cbn in H; lia)) as [I1 I2]. replace (2 * S p)%nat with (S (S (2 * p))) by lia. cbn [Nat.add].
  change (split_all64 (x :: xs) f pos t) with (fst (split_dataset64 x f pos t) :: snd (split_dataset64 x f pos t) :: split_all64 xs f pos t). cbn [nth]. auto.
Qed.
Lemma rk_pairs m F G c : (forall p, (p < m)%nat -> c * (G (2 * p)%nat + G (2 * p + 1)%nat) <= F (2 * p)%nat + F (2 * p + 1)%nat) -> c * rk (2 * m) G <= rk (2 * m) F.
Proof.
  induction m as [|m IH]; intros H; [cbn; lra|]. replace (2 * S m)%nat with (S (S (2 * m))) by lia. rewrite !rk_S. specialize (IH ltac:(intros p Hp; apply H; lia)). specialize (H m ltac:(lia)). replace (2 * m + 1)%nat with (S (2 * m)) in H by lia. lra.
Qed.
Lemma again_above ys f t pos before sub d w : let xs := split_all64 ys f pos t in mapM (g64_heter g) xs = Ok before -> (1 <= length xs)%nat -> (Z.of_nat (2 * length xs) <= 2 ^ 40)%Z -> (Z.of_nat (sumn (map (@length row64) xs)) <= 2 ^ 40)%Z ->
  evaluate64 g xs before f pos t = Ok (sub, (d, w)) -> Bleb d (Bopp BIGM64) = false.
Proof.
  intros xs MB L1 R1 R2 E. pose proof (mapM_length _ _ _ MB) as LB.
  eapply (above xs before); [exact LB|exact L1|exact R1|exact R2| |exact E|].
  { intros b Hb. apply (In_nth _ _ fnan) in Hb as (k & Hk & <-). eexists. eapply (mapM_nth _ _ _ k [] fnan MB). lia. }
  destruct (evaluate_parts _ _ _ _ _ _ _ _ _ E) as (M & LS & _). set (ns := map (@length row64) (split_all64 xs f pos t)). assert (LN : length ns = length sub) by (unfold ns; rewrite map_length, split_all_length; now rewrite LS).
  assert (N0 : ns <> []) by (intros N; rewrite N in LN; cbn in LN; lia). pose proof (weight_sum ns N0) as WS. rewrite LN, LS in WS.
  apply Rlt_le_trans with (-50000000).
  - assert (IZR (Z.of_nat (2 * length xs) + 4) <= IZR (2 ^ 41)) by (apply IZR_le; lia). change (IZR (2 ^ 41)) with 2199023255552 in H. pose proof tiny_eta as TE. rewrite p50 in *.
    apply Rle_lt_trans with (-100000000 + 2199023255552 * (/ 1125899906842624 * 100000000 + / 1125899906842624)); [|lra]. apply Rplus_le_compat_l. apply Rmult_le_compat; try lra. apply IZR_le. lia.
  - unfold exact_drop. rewrite LS. replace (-50000000) with (-50000000 * rk (2 * length xs) (weight ns)) by (rewrite WS; ring). apply rk_pairs. intros p Hp.
    assert (D1 : (2 * p / 2 = p)%nat) by (rewrite Nat.mul_comm; apply Nat.div_mul; lia). assert (D2 : ((2 * p + 1) / 2 = p)%nat) by (rewrite Nat.mul_comm, Nat.div_add_l by lia; cbn; lia). rewrite D1, D2.
    destruct (split_all_nth xs f pos t p Hp) as [Q1 Q2]. assert (HB : g64_heter g (nth p xs []) = Ok (nth p before fnan)) by (eapply (mapM_nth _ _ _ p [] fnan MB); exact Hp).
    assert (S1 : g64_heter g (fst (split_dataset64 (nth p xs []) f pos t)) = Ok (nth (2 * p) sub fnan)) by (rewrite <- Q1; eapply (mapM_nth _ _ _ (2 * p)%nat [] fnan M); rewrite split_all_length; lia).
    assert (S2 : g64_heter g (snd (split_dataset64 (nth p xs []) f pos t)) = Ok (nth (2 * p + 1) sub fnan)) by (rewrite <- Q2; eapply (mapM_nth _ _ _ (2 * p + 1)%nat [] fnan M); rewrite split_all_length; lia).
    assert (N1 : nth (2 * p) ns 0%nat = length (fst (split_dataset64 (nth p xs []) f pos t))) by (unfold ns; rewrite <- Q1; exact (map_nth (@length row64) _ [] _)).
    assert (N2 : nth (2 * p + 1) ns 0%nat = length (snd (split_dataset64 (nth p xs []) f pos t))) by (unfold ns; rewrite <- Q2; exact (map_nth (@length row64) _ [] _)).
    assert (TP : 0 < / IZR (Z.of_nat (total ns))) by (apply Rinv_0_lt_compat, IZR_lt; pose proof (total_pos ns N0); lia).
    destruct (heter_val _ _ HB) as (Fb & Sb & Bb). assert (Pb : 0 <= val (nth p before fnan)) by (apply plus_val; split; assumption).
    assert (WW : forall a b : nat, (b <= a)%nat -> 0 <= IZR (Z.of_nat (b + 1)) / IZR (Z.of_nat (total ns)) <= IZR (Z.of_nat (a + 1)) / IZR (Z.of_nat (total ns))).
    { intros a b AB. unfold Rdiv. split; [apply Rmult_le_pos; [apply IZR_le; lia|lra]|]. apply Rmult_le_compat_r; [lra|]. apply IZR_le. lia. }
    assert (IN : In (nth p xs []) (split_all64 ys f pos t)) by (apply nth_In; exact Hp).
    destruct (again ys f pos t _ IN) as [A|A]; rewrite A in S1, S2, N1, N2; cbn [fst snd] in S1, S2, N1, N2; unfold weight; rewrite N1, N2.
    + assert (EQ : nth (2 * p) sub fnan = nth p before fnan) by congruence. rewrite EQ. destruct (heter_val _ _ S2) as (_ & _ & B2). destruct (WW (length (nth p xs [])) 0%nat ltac:(lia)) as [W1 W2]. cbn [length]. set (w0 := IZR (Z.of_nat (length (nth p xs []) + 1)) / IZR (Z.of_nat (total ns))) in *. set (w1 := IZR (Z.of_nat (0 + 1)) / IZR (Z.of_nat (total ns))) in *.
      assert (w1 * -100000000 <= w1 * (val (nth p before fnan) - val (nth (2 * p + 1) sub fnan))) by (apply Rmult_le_compat_l; lra). lra.
    + assert (EQ : nth (2 * p + 1) sub fnan = nth p before fnan) by congruence. rewrite EQ. destruct (heter_val _ _ S1) as (_ & _ & B2). destruct (WW (length (nth p xs [])) 0%nat ltac:(lia)) as [W1 W2]. cbn [length]. set (w0 := IZR (Z.of_nat (length (nth p xs []) + 1)) / IZR (Z.of_nat (total ns))) in *. set (w1 := IZR (Z.of_nat (0 + 1)) / IZR (Z.of_nat (total ns))) in *.
      assert (w1 * -100000000 <= w1 * (val (nth p before fnan) - val (nth (2 * p) sub fnan))) by (apply Rmult_le_compat_l; lra). lra.
Qed.

Lemma levels_total : forall n ys f t pos before, let xs := split_all64 ys f pos t in candidate64 g f t pos -> mapM (g64_heter g) xs = Ok before -> (1 <= length xs)%nat ->
  (Z.of_nat (length xs) * 2 ^ Z.of_nat n <= 2 ^ 40)%Z -> (Z.of_nat (sumn (map (@length row64) xs)) <= 2 ^ 40)%Z -> exists ss, search_levels64 g n xs before = Ok ss.
Proof.
  induction n as [|n IH]; intros ys f t pos before xs C MB L1 R1 R2; cbn [search_levels64]; [eauto|]. destruct (existsb _ xs); [eauto|].
  pose proof (mapM_length _ _ _ MB) as LB. rewrite Nat2Z.inj_succ, Z.pow_succ_r in R1 by lia. assert (P1 : (1 <= 2 ^ Z.of_nat n)%Z) by (pose proof (Z.pow_pos_nonneg 2 (Z.of_nat n)); lia).
  assert (RR : (Z.of_nat (2 * length xs) * 2 ^ Z.of_nat n <= 2 ^ 40)%Z) by (rewrite Nat2Z.inj_mul; lia). assert (R3 : (Z.of_nat (2 * length xs) <= 2 ^ 40)%Z) by (apply Z.le_trans with (Z.of_nat (2 * length xs) * 2 ^ Z.of_nat n)%Z; [rewrite <- (Z.mul_1_r (Z.of_nat (2 * length xs))) at 1; apply Z.mul_le_mono_nonneg_l; lia|exact RR]).
  destruct (evaluate_total xs before f pos t LB) as [[sub [d w]] E]. pose proof (again_above ys f t pos before sub d w MB L1 R3 R2 E) as AB.
  destruct (single_level_total xs before f t pos sub d w LB C E AB) as [s SL]. rewrite SL. cbn [bind]. destruct (single_level_spec _ _ _ _ SL) as (C' & E' & _). destruct (evaluate_parts _ _ _ _ _ _ _ _ _ E') as (M' & _).
  destruct (IH xs (s64_feature s) (s64_type s) (s64_pos s) (s64_heter s) C' M') as [ss SS]; [rewrite split_all_length; lia|rewrite split_all_length; exact RR|pose proof (split_all_count xs (s64_feature s) (s64_pos s) (s64_type s)); lia|].
  rewrite SS. cbn [bind]. eauto.
Qed.
Theorem search_total h0 : g64_heter g (g64_rows g) = Ok h0 -> bpow radix2 (-20) <= val h0 -> (g64_max_levels g <= length (g64_foc g))%nat -> exists o, search64 g = Ok o.
Proof.
  intros H0 B ML. unfold search64. assert (G : exists o, (passert (Nat.leb (g64_max_levels g) (length (g64_foc g))) ;; h0 <- g64_heter g (g64_rows g) ;; ss <- search_levels64 g (g64_max_levels g) [g64_rows g] [h0] ;; Ok (match ss with [] => None | _ => Some (h0, ss) end)) = Ok o); [|destruct (g64_type g), (g64_split_cat g); eauto].
  rewrite (proj2 (Nat.leb_le _ _) ML). cbn [assert_ bind]. rewrite H0. cbn [bind]. pose proof ROOM as RM. unfold roomy in RM. remember (g64_max_levels g) as m eqn:EM; symmetry in EM; destruct m as [|n]; [cbn [search_levels64 bind]; eauto|].
  assert (SS : exists ss, search_levels64 g (S n) [g64_rows g] [h0] = Ok ss).
  { cbn [search_levels64]. destruct (existsb _ _); [eauto|]. assert (FT : exists f t, In (f, t) (combine (g64_foc g) (g64_foc_types g))). { destruct (g64_foc g) as [|f fs], (g64_foc_types g) as [|t ts]; try discriminate LT; [congruence|]. exists f, t. now left. }
    destruct FT as (f & t & FT). destruct (positions_total f t FT) as (ps & P & LP). destruct ps as [|pos ps]; [cbn in LP; lia|]. assert (C : candidate64 g f t pos) by (split; [exact FT|exists (pos :: ps); split; [exact P|now left]]).
    destruct (evaluate_total [g64_rows g] [h0] f pos t eq_refl) as [[sub [d w]] E]. pose proof (root_above h0 f t pos sub d w H0 B E) as AB. destruct (single_level_total [g64_rows g] [h0] f t pos sub d w eq_refl C E AB) as [s SL].
    rewrite SL. cbn [bind]. destruct (single_level_spec _ _ _ _ SL) as (C' & E' & _). destruct (evaluate_parts _ _ _ _ _ _ _ _ _ E') as (M' & _).
    destruct (levels_total n [g64_rows g] (s64_feature s) (s64_type s) (s64_pos s) (s64_heter s) C' M') as [ss SS].
    - rewrite split_all_length. cbn. lia.
    - rewrite split_all_length. cbn [length]. rewrite Nat2Z.inj_succ, Z.pow_succ_r in RM by lia. lia.
    - pose proof (split_all_count [g64_rows g] (s64_feature s) (s64_pos s) (s64_type s)) as SC. unfold sumn in SC at 2. cbn [map fold_right] in SC. assert (0 <= 2 ^ Z.of_nat (S n))%Z by (apply Z.pow_nonneg; lia). lia.
    - rewrite SS. cbn [bind]. eauto. }
  destruct SS as [ss SS]. rewrite SS. cbn [bind]. eauto.
Qed.
End Total.
