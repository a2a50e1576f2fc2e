(** FloatTune: how the reported splits depend on the depth and the thresholds, in binary64. *)
From Coq Require Import Reals.
From Flocq Require Import Core.
From Flocq Require Import IEEE754.BinarySingleNaN.
From Verif Require Import Base Numpy Utils FloatModel FloatRegion.
From Coq Require Import Lra.
Open Scope nat_scope.

Lemma le_lt_trans64' (a b x : b64) : Bleb a b = true -> Bltb b x = true -> Bltb a x = true.
Proof.
  destruct (is_finite x) eqn:Fx; destruct (is_finite a) eqn:Fa; destruct (is_finite b) eqn:Fb.
  - rewrite !Bltb_correct, Bleb_correct by assumption. unfold Rlt_bool, Rle_bool. destruct (Rcompare_spec (B2R a) (B2R b)); try discriminate;
    destruct (Rcompare_spec (B2R b) (B2R x)); try discriminate; destruct (Rcompare_spec (B2R a) (B2R x)); try reflexivity; lra.
  - destruct x as [[]| | |[]], a as [[]| | |[]], b as [|[]| |]; try discriminate; reflexivity.
  - destruct x as [[]| | |[]], a as [|[]| |], b as [[]| | |[]]; try discriminate; reflexivity.
  - destruct x as [[]| | |[]], a as [|[]| |], b as [|[]| |]; try discriminate; reflexivity.
  - destruct x as [|[]| |], a as [[]| | |[]], b as [[]| | |[]]; try discriminate; reflexivity.
  - destruct x as [|[]| |], a as [[]| | |[]], b as [|[]| |]; try discriminate; reflexivity.
  - destruct x as [|[]| |], a as [|[]| |], b as [[]| | |[]]; try discriminate; reflexivity.
  - destruct x as [|[]| |], a as [|[]| |], b as [|[]| |]; try discriminate; reflexivity.
Qed.

(** the same object with another max_split_levels, heter_pcg_drop_thres and heter_small_enough *)
Definition tuned (g : regions64) (depth : nat) (thres small : b64) : regions64 :=
  mkRegions64 (g64_heter g) (g64_sum g) (g64_rows g) (g64_type g) (g64_foc g) (g64_foc_types g) (g64_cat_limit g) (g64_min_points g) (g64_nof_splits g)
    depth thres small (g64_split_cat g).
Section Tune.
  Variable g : regions64.
  Lemma single_tuned d t s xs before : single_level64 (tuned g d t s) xs before = single_level64 g xs before.
  Proof. reflexivity. Qed.
  Lemma levels_tuned d t s n : forall xs before, search_levels64 (tuned g d t s) n xs before = search_levels64 g n xs before.
  Proof. induction n as [|n IH]; intros xs before; [reflexivity|]. cbn [search_levels64]. change (g64_min_points (tuned g d t s)) with (g64_min_points g). rewrite single_tuned. destruct (existsb _ xs); [reflexivity|]. destruct (single_level64 g xs before) as [sp|]; [|reflexivity]. cbn [bind]. now rewrite IH. Qed.
  Lemma levels_firstn n n' : n <= n' -> forall xs before ss, search_levels64 g n' xs before = Ok ss -> search_levels64 g n xs before = Ok (firstn n ss).
  Proof.
    revert n'. induction n as [|n IH]; intros n' L xs before ss H; [reflexivity|]. destruct n' as [|n']; [lia|]. cbn [search_levels64] in *.
    destruct (existsb _ xs); [inversion H; reflexivity|]. destruct (single_level64 g xs before) as [s|]; [|discriminate H]. cbn [bind] in *.
    destruct (search_levels64 g n' _ _) as [r|] eqn:E; [|discriminate H]. cbn [bind] in H. assert (ss = s :: r) by congruence. subst ss.
    rewrite (IH n' ltac:(lia) _ _ r E). reflexivity.
  Qed.
  Lemma valid_firstn t n : forall a ss, valid_prefix64 t a (firstn n ss) = firstn n (valid_prefix64 t a ss).
  Proof. induction n as [|n IH]; intros a ss; [reflexivity|]. destruct ss as [|s ss]; [reflexivity|]. cbn [firstn valid_prefix64]. destruct (valid64 t a (s64_wheter s)); [cbn [firstn]; now rewrite IH|reflexivity]. Qed.
  Lemma valid_le t t' : Bleb t' t = true -> forall ss a, exists post, valid_prefix64 t' a ss = valid_prefix64 t a ss ++ post.
  Proof.
    intros L. induction ss as [|s ss IH]; intros a; [now exists []|]. cbn [valid_prefix64]. destruct (valid64 t a (s64_wheter s)) eqn:V; [|eexists; reflexivity].
    unfold valid64 in *. rewrite (le_lt_trans64' _ _ _ L V). destruct (IH (s64_wheter s)) as [post E]. exists post. now rewrite E.
  Qed.
  Definition splits_of (f : option (b64 * list split64)) : list split64 := match f with Some (_, ss) => ss | None => [] end.
  Lemma search_depth n n' t s f : n <= n' -> search64 (tuned g n' t s) = Ok f ->
    exists f', search64 (tuned g n t s) = Ok f' /\ splits_of f' = firstn n (splits_of f) /\ (f' = None \/ exists h0 ss ss', f = Some (h0, ss) /\ f' = Some (h0, ss')).
  Proof.
    intros L. unfold search64. cbn [tuned g64_type g64_split_cat g64_max_levels g64_foc g64_heter g64_rows].
    assert (K : (passert (Nat.leb n' (length (g64_foc g))) ;; h0 <- g64_heter g (g64_rows g) ;; ss <- search_levels64 (tuned g n' t s) n' [g64_rows g] [h0] ;; Ok (match ss with [] => None | _ => Some (h0, ss) end)) = Ok f ->
      exists f', (passert (Nat.leb n (length (g64_foc g))) ;; h0 <- g64_heter g (g64_rows g) ;; ss <- search_levels64 (tuned g n t s) n [g64_rows g] [h0] ;; Ok (match ss with [] => None | _ => Some (h0, ss) end)) = Ok f' /\ splits_of f' = firstn n (splits_of f) /\ (f' = None \/ exists h0 ss ss', f = Some (h0, ss) /\ f' = Some (h0, ss'))).
    { intros H. apply bind_ok in H as (u & A & H). apply bind_ok in H as (h0 & B & H). apply bind_ok in H as (ss & D & H). rewrite levels_tuned in D. pose proof (levels_firstn n n' L _ _ _ D) as D'.
      assert (A' : assert_ (Nat.leb n (length (g64_foc g))) = Ok tt). { destruct (Nat.leb n' (length (g64_foc g))) eqn:Q; [|discriminate A]. apply Nat.leb_le in Q. rewrite (proj2 (Nat.leb_le n _)) by lia. reflexivity. }
      rewrite A'. cbn [bind]. rewrite B. cbn [bind]. rewrite levels_tuned, D'. cbn [bind]. destruct ss as [|s0 ss].
      - assert (f = None) by congruence. subst f. rewrite firstn_nil. exists None. split; [reflexivity|]. split; [now rewrite firstn_nil|now left].
      - assert (f = Some (h0, s0 :: ss)) by congruence. subst f. destruct n as [|n]; cbn [firstn]; [exists None; split; [reflexivity|]; split; [reflexivity|now left]|].
        eexists. split; [reflexivity|]. split; [reflexivity|]. right. exists h0, (s0 :: ss), (s0 :: firstn n ss). split; reflexivity. }
    destruct (g64_type g), (g64_split_cat g); try exact K. intros H. exists None. split; [reflexivity|]. assert (f = None) by congruence. subst f. split; [now rewrite firstn_nil|now left].
  Qed.
  Lemma choose_tuned d d' t s f : choose64 (tuned g d t s) f = choose64 (tuned g d' t s) f.
  Proof. reflexivity. Qed.
  Lemma subregions_depth n n' t s l : n <= n' -> subregions64 (tuned g n' t s) = Ok l -> subregions64 (tuned g n t s) = Ok (firstn n l).
  Proof.
    intros L H. unfold subregions64 in *. apply bind_ok in H as (f & A & H). destruct (search_depth n n' t s f L A) as (f' & B & E & C). rewrite B. cbn [bind].
    assert (l = choose64 (tuned g n' t s) f) by congruence. subst l. f_equal. rewrite (choose_tuned n' n). destruct C as [-> | (h0 & ss & ss' & -> & ->)].
    - cbn [splits_of] in E. destruct f as [[h0 ss]|]; [|now rewrite firstn_nil]. cbn [splits_of] in E. cbn [choose64]. destruct (Beqb h0 BIGM64); [now rewrite firstn_nil|]. destruct (Bltb h0 _); [now rewrite firstn_nil|].
      rewrite <- valid_firstn, <- E. reflexivity.
    - cbn [splits_of] in E. subst ss'. cbn [choose64]. destruct (Beqb h0 BIGM64); [now rewrite firstn_nil|]. destruct (Bltb h0 _); [now rewrite firstn_nil|]. apply valid_firstn.
  Qed.
  Lemma search_thres d t s t' s' : search64 (tuned g d t s) = search64 (tuned g d t' s').
  Proof. unfold search64. cbn [tuned g64_type g64_split_cat g64_max_levels g64_foc g64_heter g64_rows]. destruct (g64_type g), (g64_split_cat g); try reflexivity; (destruct (assert_ _); [|reflexivity]; cbn [bind]; destruct (g64_heter g (g64_rows g)); [|reflexivity]; cbn [bind]; now rewrite !levels_tuned). Qed.
  Lemma subregions_thres d t s t' s' l : Bleb t' t = true -> Bleb s' s = true -> subregions64 (tuned g d t' s') = Ok l ->
    exists k post, subregions64 (tuned g d t s) = Ok k /\ l = k ++ post.
  Proof.
    intros T S0 H. unfold subregions64 in *. rewrite (search_thres d t s t' s'). apply bind_ok in H as (f & A & H). rewrite A. cbn [bind]. assert (l = choose64 (tuned g d t' s') f) by congruence. subst l.
    destruct f as [[h0 ss]|]; cbn [choose64]; [|exists [], []; split; reflexivity]. destruct (Beqb h0 BIGM64); [exists [], []; split; reflexivity|]. cbn [tuned g64_small g64_thres].
    destruct (Bltb h0 s) eqn:B; [eexists; eexists; split; reflexivity|].
    destruct (Bltb h0 s') eqn:B'; cycle 1. { destruct (valid_le t t' T ss h0) as [post E]. exists (valid_prefix64 t h0 ss), post. split; [reflexivity|exact E]. }
    exfalso. revert S0 B B'. clear. intros L B B'. destruct (is_finite h0) eqn:F1; destruct (is_finite s) eqn:F2; destruct (is_finite s') eqn:F3.
    - rewrite !Bltb_correct in * by assumption. rewrite Bleb_correct in L by assumption. unfold Rlt_bool, Rle_bool in *. destruct (Rcompare_spec (B2R s') (B2R s)); try discriminate;
      destruct (Rcompare_spec (B2R h0) (B2R s)); try discriminate; destruct (Rcompare_spec (B2R h0) (B2R s')); try discriminate; lra.
    - destruct h0 as [[]| | |[]], s as [[]| | |[]], s' as [|[]| |]; discriminate.
    - destruct h0 as [[]| | |[]], s as [|[]| |], s' as [[]| | |[]]; discriminate.
    - destruct h0 as [[]| | |[]], s as [|[]| |], s' as [|[]| |]; discriminate.
    - destruct h0 as [|[]| |], s as [[]| | |[]], s' as [[]| | |[]]; discriminate.
    - destruct h0 as [|[]| |], s as [[]| | |[]], s' as [|[]| |]; discriminate.
    - destruct h0 as [|[]| |], s as [|[]| |], s' as [[]| | |[]]; discriminate.
    - destruct h0 as [|[]| |], s as [|[]| |], s' as [|[]| |]; discriminate.
  Qed.
End Tune.
