(** FloatRegionIdeal: the split search compared with an ideal heterogeneity, a real number for every part of the data that heter_func
    approximates. *)
From Coq Require Import Reals Permutation.
From Flocq Require Import Core.
From Flocq Require Import IEEE754.BinarySingleNaN.
From Verif Require Import Base Numpy NumpyFacts Utils FloatModel FloatFacts FloatRegion FloatRegionProofs FloatRegionSum FloatRegionTop FloatRegionMain FloatRegionGuard FloatRegionAll Prop_FloatRegion.
From Coq Require Import Lra.
Open Scope R_scope.

(** The weighted drop of heterogeneity when the regions [before] are cut into [after] (two per region, in order): every new region counts
    with (its size + 1) / (total of the sizes + 1). *)
Definition ideal_weight (after : list (list row64)) (k : nat) : R :=
  INR (length (nth k after []) + 1) / INR (sumn (map (fun x => length x + 1)%nat after)).
Definition ideal_drop (h : list row64 -> R) (before after : list (list row64)) : R :=
  fold_right Rplus 0 (map (fun k => ideal_weight after k * (h (nth (k / 2) before []) - h (nth k after []))) (seq 0 (length after))).

Lemma rk_fold n F : rk n F = fold_right Rplus 0 (map F (seq 0 n)).
Proof. reflexivity. Qed.
Lemma ideal_weight_ok after k : (k < length after)%nat -> ideal_weight after k = weight (map (@length row64) after) k.
Proof.
  intros Hk. unfold ideal_weight, weight, total. rewrite !INR_IZR_INZ, map_map. f_equal. f_equal. f_equal. f_equal. change 0%nat with (@length row64 []). now rewrite map_nth.
Qed.
Lemma drop_close (h : list row64 -> R) E before after hb sub : after <> [] -> (length after <= 2 * length before)%nat -> length hb = length before -> length sub = length after ->
  (forall k, (k < length before)%nat -> Rabs (val (nth k hb fnan) - h (nth k before [])) <= E) -> (forall k, (k < length after)%nat -> Rabs (val (nth k sub fnan) - h (nth k after [])) <= E) ->
  Rabs (exact_drop hb sub (map (@length row64) after) - ideal_drop h before after) <= 2 * E.
Proof.
  intros N L2 L1 LS CB CS. unfold exact_drop, ideal_drop. rewrite <- rk_fold, LS. set (ns := map (@length row64) after). assert (LN : length ns = length after) by apply map_length.
  assert (NN : ns <> []) by (intros Q; apply N; unfold ns in Q; now apply map_eq_nil in Q).
  assert (W : forall k, (k < length after)%nat -> 0 <= weight ns k). { intros k Hk. unfold weight. pose proof (total_pos ns NN). apply Rmult_le_pos; [apply IZR_le; lia|]. left. apply Rinv_0_lt_compat, IZR_lt. lia. }
  rewrite (rk_ext _ (fun k => ideal_weight after k * (h (nth (k / 2) before []) - h (nth k after []))) (fun k => weight ns k * (h (nth (k / 2) before []) - h (nth k after []))))
    by (intros k Hk; now rewrite ideal_weight_ok).
  assert (G : forall n F G, (forall k, (k < n)%nat -> Rabs (F k - G k) <= 2 * E * weight ns k) -> Rabs (rk n F - rk n G) <= 2 * E * rk n (weight ns)).
  { induction n as [|n IH]; intros F G0 Q; [unfold rk; cbn; rewrite Rminus_0_r, Rabs_R0; lra|]. rewrite !rk_S. specialize (IH F G0 ltac:(intros; apply Q; lia)). specialize (Q n ltac:(lia)). apply Rabs_le_inv in IH, Q. apply Rabs_le. lra. }
  assert (WS : rk (length after) (weight ns) = 1) by (rewrite <- LN; now apply weight_sum). eapply Rle_trans; [apply G|rewrite WS; lra]. intros k Hk. assert (K2 : (k / 2 < length before)%nat) by (apply Nat.div_lt_upper_bound; lia). specialize (CB _ K2). specialize (CS _ Hk). specialize (W k Hk). apply Rabs_le_inv in CB, CS.
  rewrite <- Rmult_minus_distr_l, Rabs_mult, (Rabs_pos_eq (weight ns k)) by exact W. rewrite Rmult_comm. apply Rmult_le_compat_r; [exact W|]. apply Rabs_le. lra.
Qed.
Lemma mapM_close (g : regions64) (h : list row64 -> R) E xs hs : (forall x v, part_of (g64_rows g) x -> g64_heter g x = Ok v -> Rabs (val v - h x) <= E) ->
  parts g xs -> mapM (g64_heter g) xs = Ok hs -> length hs = length xs /\ forall k, (k < length xs)%nat -> Rabs (val (nth k hs fnan) - h (nth k xs [])) <= E.
Proof.
  intros C P M. pose proof (mapM_length _ _ _ M) as L. split; [exact L|]. intros k Hk. apply C; [apply P, nth_In, Hk|]. now apply (mapM_nth _ _ _ k [] fnan M).
Qed.
Lemma before_close (g : regions64) (h : list row64 -> R) E h0 ss pre s post : (forall x v, part_of (g64_rows g) x -> g64_heter g x = Ok v -> Rabs (val v - h x) <= E) ->
  search64 g = Ok (Some (h0, ss)) -> ss = pre ++ s :: post ->
  length (heter_after h0 pre) = length (regions_after g pre) /\ forall k, (k < length (regions_after g pre))%nat -> Rabs (val (nth k (heter_after h0 pre) fnan) - h (nth k (regions_after g pre) [])) <= E.
Proof.
  intros C SE AT. split; [exact (heter_after_length g h0 ss pre s post SE AT)|]. destruct (rev pre) as [|p q] eqn:R.
  - assert (pre = []) by (apply (f_equal (@rev _)) in R; now rewrite rev_involutive in R). subst pre. destruct (search_at g h0 ss [] s post SE AT) as (H0 & _). intros k Hk. cbn in Hk. assert (k = 0)%nat by lia. subst k. apply C; [apply part_refl|exact H0].
  - assert (P : pre = rev q ++ [p]) by (apply (f_equal (@rev _)) in R; rewrite rev_involutive in R; exact R). rewrite P in AT |- *. rewrite <- app_assoc in AT.
    destruct (search_at g h0 ss (rev q) p (s :: post) SE AT) as (_ & _ & S). apply single_level_spec in S as (_ & S & _). apply evaluate_parts in S as (S & _).
    unfold heter_after, regions_after. rewrite map_app, fold_left_app. cbn [map fold_left]. rewrite last_snoc. fold (regions_after g (rev q)).
    apply (mapM_close g h E _ _ C) in S; [apply S|]. apply split_all_parts, regions_after_parts.
Qed.

(** the chosen split is near-optimal for the ideal heterogeneity *)
Theorem ideal_near (g : regions64) (h : list row64 -> R) E H h0 ss pre s post f t pos : sums (g64_sum g) -> roomy g -> heter_finite g ->
  (forall x v, part_of (g64_rows g) x -> g64_heter g x = Ok v -> Rabs (val v - h x) <= E /\ val v <= H) -> H <= bpow radix2 900 ->
  search64 g = Ok (Some (h0, ss)) -> ss = pre ++ s :: post -> candidate64 g f t pos ->
  ideal_drop h (regions_after g pre) (split_all64 (regions_after g pre) f pos t) <=
  ideal_drop h (regions_after g pre) (split_all64 (regions_after g pre) (s64_feature s) (s64_pos s) (s64_type s))
  + 4 * E + 2 * (IZR (2 ^ Z.of_nat (S (length pre)) + 4) * (bpow radix2 (-50) * H + bpow radix2 (-1074))).
Proof.
  intros SUM ROOM HF C HH SE AT CA. destruct (C112_best g h0 ss pre s post SUM ROOM HF SE AT) as (_ & M & N & B). destruct (B f t pos CA) as (sub & d & w & Ed & _).
  destruct (evaluate_parts _ _ _ _ _ _ _ _ _ Ed) as (M' & _). pose proof (regions_after_parts g pre) as RP.
  assert (C1 : forall x v, part_of (g64_rows g) x -> g64_heter g x = Ok v -> Rabs (val v - h x) <= E) by (intros x v P Q; now apply (C x v)).
  destruct (before_close g h E h0 ss pre s post C1 SE AT) as [LB CB].
  destruct (mapM_close g h E _ _ C1 (split_all_parts g _ f pos t RP) M') as [L1 K1]. destruct (mapM_close g h E _ _ C1 (split_all_parts g _ (s64_feature s) (s64_pos s) (s64_type s) RP) M) as [L2 K2].
  assert (LR : (1 <= length (regions_after g pre))%nat). { destruct (regions_after_size g pre) as [-> _]. pose proof (Nat.pow_nonzero 2 (length pre)). lia. }
  assert (DC : forall f pos t hs, length hs = length (split_all64 (regions_after g pre) f pos t) -> (forall k, (k < length (split_all64 (regions_after g pre) f pos t))%nat -> Rabs (val (nth k hs fnan) - h (nth k (split_all64 (regions_after g pre) f pos t) [])) <= E) ->
     Rabs (exact_drop (heter_after h0 pre) hs (map (@length row64) (split_all64 (regions_after g pre) f pos t)) - ideal_drop h (regions_after g pre) (split_all64 (regions_after g pre) f pos t)) <= 2 * E).
  { intros f' pos' t' hs L K. apply drop_close; auto; [|rewrite split_all_length; lia]. intros Q. apply (f_equal (@length _)) in Q. rewrite split_all_length in Q. cbn in Q. lia. }
  pose proof (DC _ _ _ _ L1 K1) as D1. pose proof (DC _ _ _ _ L2 K2) as D2.
  assert (NO : exact_drop (heter_after h0 pre) sub (map (@length row64) (split_all64 (regions_after g pre) f pos t)) <= exact_drop (heter_after h0 pre) (s64_heter s) (map (@length row64) (split_all64 (regions_after g pre) (s64_feature s) (s64_pos s) (s64_type s)))
     + 2 * (IZR (2 ^ Z.of_nat (S (length pre)) + 4) * (bpow radix2 (-50) * H + bpow radix2 (-1074)))).
  { apply (C112_near_optimal g h0 ss pre s post H f t pos sub d w SUM ROOM HF SE AT CA Ed HH). intros x Hx.
    assert (FR : exists y, part_of (g64_rows g) y /\ g64_heter g y = Ok x).
    { destruct Hx as [Hx|[Hx|Hx]].
      - assert (SE' := SE). rewrite <- guard_search in SE'. destruct (heter_after_from (guard g) h0 ss pre s post x SE' AT Hx) as (y & Hy). apply guard_ok in Hy. eauto.
      - apply (In_nth _ _ fnan) in Hx as (k & Hk & <-). rewrite L1 in Hk. exists (nth k (split_all64 (regions_after g pre) f pos t) []). split; [apply (split_all_parts g _ f pos t RP), nth_In, Hk|]. now apply (mapM_nth _ _ _ k [] fnan M').
      - apply (In_nth _ _ fnan) in Hx as (k & Hk & <-). rewrite L2 in Hk. eexists. split; [apply (split_all_parts g _ (s64_feature s) (s64_pos s) (s64_type s) RP), nth_In, Hk|]. now apply (mapM_nth _ _ _ k [] fnan M). }
    destruct FR as (y & Py & Hy). now apply (C y x). }
  apply Rabs_le_inv in D1, D2. lra.
Qed.
