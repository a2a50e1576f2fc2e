(** FloatCat: the limits of a categorical feature (bin_splitting.py:104-127) in binary64. *)
From Coq Require Import Reals.
From Flocq Require Import Core.
From Flocq Require Import IEEE754.BinarySingleNaN Relative.
From Verif Require Import Base Numpy NumpyFacts FloatModel FloatFacts FloatGrid FloatBins FloatProofs FloatMean FloatAcc FloatVar.
From Coq Require Import Lra.
Open Scope R_scope.

(** ** np.unique *)
Definition below_all (a : R) (l : list b64) : Prop := forall b, In b l -> a < val b.
Fixpoint incr64 (l : list b64) : Prop := match l with [] => True | a :: l' => below_all (val a) l' /\ incr64 l' end.

Lemma uinsert_in a l x : In x (uinsert64 a l) -> x = a \/ In x l.
Proof.
  induction l as [|b l IH]; cbn [uinsert64]; [intros [->|[]]; auto|].
  destruct (Bltb a b); [cbn; intuition|]. destruct (Beqb a b); [cbn; intuition|]. intros [->|H]; [right; now left|]. destruct (IH H); cbn; auto.
Qed.
Lemma uinsert_covers a l x : fin a -> fins l -> In x (a :: l) -> exists y, In y (uinsert64 a l) /\ val y = val x.
Proof.
  intros Fa. induction l as [|b l IH]; intros F H; cbn [uinsert64]; [destruct H as [->|[]]; exists x; cbn; auto|].
  destruct (Bltb a b); [exists x; cbn in *; intuition|]. destruct (Beqb a b) eqn:E.
  - rewrite Beqb_correct in E by (auto; apply F; now left). apply Req_bool_true_iff in E || (destruct (Req_bool_spec (B2R a) (B2R b)) as [E'|]; [clear E; rename E' into E|discriminate]).
    destruct H as [->|H]; [exists b; cbn; auto|]. exists x. auto.
  - destruct H as [->|[->|H]].
    + destruct (IH (fins_tl _ _ F) (or_introl eq_refl)) as (y & Hy & Ey). exists y. cbn. auto.
    + exists x. cbn. auto.
    + destruct (IH (fins_tl _ _ F) (or_intror H)) as (y & Hy & Ey). exists y. cbn. auto.
Qed.
Lemma uinsert_incr a l : fin a -> fins l -> incr64 l -> incr64 (uinsert64 a l).
Proof.
  intros Fa. induction l as [|b l IH]; intros F I; cbn [uinsert64]; [split; [intros ? []|exact Logic.I]|].
  assert (Fb : fin b) by (apply F; now left). destruct I as [I1 I2]. destruct (Bltb a b) eqn:E1.
  - apply flt_val in E1; auto. split; [|split; assumption]. intros c [<-|Hc]; [exact E1|]. specialize (I1 c Hc). lra.
  - destruct (Beqb a b) eqn:E2; [split; assumption|].
    assert (N1 : ~ val a < val b). { rewrite <- flt_val by assumption. congruence. }
    assert (N2 : val a <> val b). { intros E. rewrite Beqb_correct in E2 by assumption. rewrite Req_bool_true in E2 by exact E. discriminate. }
    split; [|apply IH; auto; eapply fins_tl; eauto]. intros c Hc. apply uinsert_in in Hc as [->|Hc]; [lra|]. now apply I1.
Qed.
Lemma unique64_spec l : fins l -> incr64 (unique64 l) /\ (forall x, In x (unique64 l) -> In x l) /\ (forall x, In x l -> exists y, In y (unique64 l) /\ val y = val x).
Proof.
  unfold unique64. induction l as [|a l IH]; intros F; [repeat split; intros x []|]. destruct (IH (fins_tl _ _ F)) as (I1 & I2 & I3). cbn [fold_right].
  assert (Fa : fin a) by (apply F; now left). assert (Fu : fins (fold_right uinsert64 [] l)) by (intros x Hx; apply F; right; apply I2, Hx).
  split; [now apply uinsert_incr|]. split.
  - intros x Hx. apply uinsert_in in Hx as [->|Hx]; [now left|right; apply I2, Hx].
  - intros x [->|Hx]; [apply uinsert_covers; auto; now left|]. destruct (I3 x Hx) as (y & Hy & E). destruct (uinsert_covers a _ y Fa Fu (or_intror Hy)) as (z & Hz & E'). exists z. split; [exact Hz|congruence].
Qed.
Lemma incr_nth l i j : incr64 l -> (i < j)%nat -> (j < length l)%nat -> val (nth i l fnan) < val (nth j l fnan).
Proof.
  revert i j. induction l as [|a l IH]; intros i j I Hij Hj; [cbn in Hj; lia|]. destruct I as [I1 I2]. destruct j as [|j]; [lia|]. cbn in Hj. destruct i as [|i]; cbn [nth].
  - apply I1, nth_In. lia.
  - apply IH; auto; lia.
Qed.

(** ** the midpoint of a gap *)

(** half the rounded gap: between 3/8 and 5/8 of the gap *)
Lemma half_gap (a b : b64) : fin a -> fin b -> Rabs (val a) <= bpow radix2 1000 -> Rabs (val b) <= bpow radix2 1000 -> bpow radix2 (-1000) <= val b - val a ->
  let h := fdiv (fsub b a) (fofZ 2) in let g := val b - val a in fin h /\ (1 - u53) * (g / 2) <= val h <= (1 + u53) * (g / 2).
Proof.
  intros Fa Fb Ba Bb G h g. pose proof u53_pos as U. pose proof u53_small as US. pose proof (bpow_gt_0 radix2 (-1000)) as P.
  assert (B0 : bpow radix2 1023 = 8388608 * bpow radix2 1000) by (change 1023%Z with (23 + 1000)%Z; rewrite bpow_plus; reflexivity). pose proof (bpow_gt_0 radix2 1000) as P1.
  apply Rabs_le_inv in Ba. apply Rabs_le_inv in Bb.
  destruct (fsub_val b a Fb Fa) as [V F]. { apply Rabs_le. lra. }
  destruct (rnd_minus_rel b a) as (e & A & R). rewrite R in V. fold g in V, G. apply Rabs_le_inv in A.
  destruct (fofZ_val 2 ltac:(lia)) as [V2 F2].
  assert (Vd : g * (1 - u53) <= val (fsub b a) <= g * (1 + u53)). { rewrite V. split; apply Rmult_le_compat_l; lra. }
  assert (gu : g * u53 <= g * / 1000000) by (apply Rmult_le_compat_l; lra).
  destruct (fdiv_val (fsub b a) (fofZ 2) F F2) as [Vh Fh]; [rewrite V2; lra|rewrite V2; apply Rabs_le; unfold g in *; lra|]. fold h in Vh, Fh. split; [exact Fh|].
  assert (E : val h = val (fsub b a) / 2).
  { rewrite Vh, V2. apply round_generic; [typeclasses eauto|]. replace (val (fsub b a) / IZR 2) with (val (fsub b a) * bpow radix2 (-1)) by (unfold bpow; cbn; lra).
    pose proof (val_fmt (fsub b a)) as FM. unfold fmt in *. change fexp64 with (FLT_exp (-1074) 53) in *.
    apply generic_format_FLX_FLT in FM. set (x := val (fsub b a)) in *.
    assert (FX : generic_format radix2 (FLX_exp 53) (x * bpow radix2 (-1))).
    { apply FLX_format_generic in FM; [|reflexivity]. destruct FM as [f Ef Hf]. apply generic_format_FLX. exists (Float radix2 (Fnum f) (Fexp f - 1)); [|exact Hf].
      rewrite Ef. unfold F2R. cbn [Fnum Fexp]. rewrite Rmult_assoc, <- bpow_plus. reflexivity. }
    apply generic_format_FLT_FLX; [|exact FX].
    rewrite Rabs_mult, (Rabs_pos_eq (bpow radix2 (-1))) by apply bpow_ge_0. rewrite Rabs_pos_eq by nra.
    apply Rle_trans with (bpow radix2 (-1001) * bpow radix2 (-1)); [rewrite <- bpow_plus; apply bpow_le; lia|]. apply Rmult_le_compat_r; [apply bpow_ge_0|].
    assert (bpow radix2 (-1000) = 2 * bpow radix2 (-1001)) by (change (-1000)%Z with (1 + -1001)%Z; rewrite bpow_plus; reflexivity). nra. }
  rewrite E. lra.
Qed.

Definition apart (a b : b64) : Prop :=
  bpow radix2 (-1000) <= val b - val a /\ Rabs (val a) <= bpow radix2 50 * (val b - val a) /\ Rabs (val b) <= bpow radix2 50 * (val b - val a).
Definition tame (x : b64) : Prop := fin x /\ Rabs (val x) <= bpow radix2 1000.

Lemma u53_50 : u53 * bpow radix2 50 = / 8.
Proof. rewrite <- bpow_plus. change (-53 + 50)%Z with (-3)%Z. unfold bpow. cbn. lra. Qed.

Lemma add_half a b c : tame a -> tame b -> tame c -> apart a b -> Rabs (val c) <= bpow radix2 50 * (val b - val a) ->
  let m := fadd c (fdiv (fsub b a) (fofZ 2)) in fin m /\ val c < val m < val c + (val b - val a) /\ Rabs (val m) <= bpow radix2 1002.
Proof.
  intros [Fa Ba] [Fb Bb] [Fc Bc] (G & _ & _) GC m. destruct (half_gap a b Fa Fb Ba Bb G) as [Fh Vh]. set (h := fdiv (fsub b a) (fofZ 2)) in *.
  set (g := val b - val a) in *. pose proof u53_pos as U. pose proof u53_small as US. pose proof (bpow_gt_0 radix2 (-1000)) as P. pose proof u53_50 as U50.
  assert (B0 : bpow radix2 1023 = 8388608 * bpow radix2 1000) by (change 1023%Z with (23 + 1000)%Z; rewrite bpow_plus; reflexivity). pose proof (bpow_gt_0 radix2 1000) as P1.
  assert (B2 : bpow radix2 1002 = 4 * bpow radix2 1000) by (change 1002%Z with (2 + 1000)%Z; rewrite bpow_plus; reflexivity).
  assert (gu : g * u53 <= g * / 1000000) by (apply Rmult_le_compat_l; lra).
  assert (GB : g <= 2 * bpow radix2 1000) by (apply Rabs_le_inv in Ba; apply Rabs_le_inv in Bb; unfold g; lra).
  assert (AB : Rabs (val c + val h) <= Rabs (val c) + g). { eapply Rle_trans; [apply Rabs_triang|]. rewrite (Rabs_pos_eq (val h)) by nra. lra. }
  destruct (fadd_val c h Fc Fh) as [V F]; [lra|]. destruct (rnd_plus_rel c h) as (e & A & R). fold m in V, F. rewrite R in V.
  assert (EE : Rabs (val m - (val c + val h)) <= g / 8 + g / 1000000).
  { rewrite V. replace ((val c + val h) * (1 + e) - (val c + val h)) with ((val c + val h) * e) by ring. rewrite Rabs_mult.
    apply Rle_trans with ((Rabs (val c) + g) * u53); [apply Rmult_le_compat; auto using Rabs_pos|].
    apply Rle_trans with ((bpow radix2 50 * g + g) * u53); [apply Rmult_le_compat_r; lra|]. replace ((bpow radix2 50 * g + g) * u53) with (u53 * bpow radix2 50 * g + g * u53) by ring. rewrite U50. lra. }
  apply Rabs_le_inv in EE. split; [exact F|]. split; [lra|]. apply Rabs_le. apply Rabs_le_inv in Bc. lra.
Qed.
Lemma sub_half a b : tame a -> tame b -> apart a b ->
  let m := fsub a (fdiv (fsub b a) (fofZ 2)) in fin m /\ val m < val a.
Proof.
  intros [Fa Ba] [Fb Bb] (G & GA & _) m. destruct (half_gap a b Fa Fb Ba Bb G) as [Fh Vh]. set (h := fdiv (fsub b a) (fofZ 2)) in *.
  set (g := val b - val a) in *. pose proof u53_pos as U. pose proof u53_small as US. pose proof (bpow_gt_0 radix2 (-1000)) as P. pose proof u53_50 as U50.
  assert (B0 : bpow radix2 1023 = 8388608 * bpow radix2 1000) by (change 1023%Z with (23 + 1000)%Z; rewrite bpow_plus; reflexivity). pose proof (bpow_gt_0 radix2 1000) as P1.
  assert (gu : g * u53 <= g * / 1000000) by (apply Rmult_le_compat_l; lra).
  assert (GB : g <= 2 * bpow radix2 1000) by (apply Rabs_le_inv in Ba; apply Rabs_le_inv in Bb; unfold g; lra).
  assert (AB : Rabs (val a - val h) <= Rabs (val a) + g). { unfold Rminus. eapply Rle_trans; [apply Rabs_triang|]. rewrite Rabs_Ropp, (Rabs_pos_eq (val h)) by nra. lra. }
  destruct (fsub_val a h Fa Fh) as [V F]; [lra|]. destruct (rnd_minus_rel a h) as (e & A & R). fold m in V, F. rewrite R in V.
  assert (EE : Rabs (val m - (val a - val h)) <= g / 8 + g / 1000000).
  { rewrite V. replace ((val a - val h) * (1 + e) - (val a - val h)) with ((val a - val h) * e) by ring. rewrite Rabs_mult.
    apply Rle_trans with ((Rabs (val a) + g) * u53); [apply Rmult_le_compat; auto using Rabs_pos|].
    apply Rle_trans with ((bpow radix2 50 * g + g) * u53); [apply Rmult_le_compat_r; lra|]. replace ((bpow radix2 50 * g + g) * u53) with (u53 * bpow radix2 50 * g + g * u53) by ring. rewrite U50. lra. }
  apply Rabs_le_inv in EE. split; [exact F|lra].
Qed.

(** ** the limits *)
Definition cat_lims (u : list b64) : list b64 :=
  let dx := map (fun p => fsub (snd p) (fst p)) (combine u (tl u)) in
  fsub (nth 0 u fnan) (fdiv (nth 0 dx fnan) (fofZ 2)) :: map (fun p => fadd (fst p) (fdiv (snd p) (fofZ 2))) (combine u dx)
    ++ [fadd (last64 u) (fdiv (last64 dx) (fofZ 2))].
Definition gaps (u : list b64) : list b64 := map (fun p => fsub (snd p) (fst p)) (combine u (tl u)).
Lemma nth_tl {A} (l : list A) i d : nth i (tl l) d = nth (S i) l d. Proof. destruct l; [destruct i|]; reflexivity. Qed.
Lemma tl_length {A} (l : list A) : length (tl l) = (length l - 1)%nat. Proof. destruct l; cbn; lia. Qed.
Lemma gaps_length u : length (gaps u) = (length u - 1)%nat.
Proof. unfold gaps. rewrite map_length, combine_length, tl_length. lia. Qed.
Lemma nth_combine {A B} (a : list A) (b : list B) i da db : (i < length a)%nat -> (i < length b)%nat -> nth i (combine a b) (da, db) = (nth i a da, nth i b db).
Proof. revert b i. induction a as [|x a IH]; intros [|y b] [|i] H1 H2; cbn in *; try lia; [reflexivity|apply IH; lia]. Qed.
Lemma gaps_nth u i : (S i < length u)%nat -> nth i (gaps u) fnan = fsub (nth (S i) u fnan) (nth i u fnan).
Proof.
  intros H. unfold gaps. match goal with |- nth i (map ?h _) _ = _ => rewrite (nth_indep _ fnan (h (fnan, fnan))) by (rewrite map_length, combine_length, tl_length; lia); rewrite (map_nth h) end.
  rewrite nth_combine by (rewrite ?tl_length; lia). cbn [fst snd]. now rewrite nth_tl.
Qed.
Lemma lims_length u : (2 <= length u)%nat -> length (cat_lims u) = S (length u).
Proof. intros H. unfold cat_lims. fold (gaps u). cbn [length]. rewrite app_length, map_length, combine_length, gaps_length. cbn [length]. lia. Qed.
Lemma lims_0 u : (2 <= length u)%nat -> nth 0 (cat_lims u) fnan = fsub (nth 0 u fnan) (fdiv (fsub (nth 1 u fnan) (nth 0 u fnan)) (fofZ 2)).
Proof. intros H. unfold cat_lims. fold (gaps u). cbn [nth]. now rewrite gaps_nth by lia. Qed.
Lemma lims_mid u i : (S i < length u)%nat -> nth (S i) (cat_lims u) fnan = fadd (nth i u fnan) (fdiv (fsub (nth (S i) u fnan) (nth i u fnan)) (fofZ 2)).
Proof.
  intros H. unfold cat_lims. fold (gaps u). cbn [nth]. rewrite app_nth1 by (rewrite map_length, combine_length, gaps_length; lia).
  match goal with |- nth i (map ?h _) _ = _ => rewrite (nth_indep _ fnan (h (fnan, fnan))) by (rewrite map_length, combine_length, gaps_length; lia); rewrite (map_nth h) end.
  rewrite nth_combine by (rewrite ?gaps_length; lia). cbn [fst snd]. now rewrite gaps_nth by lia.
Qed.
Lemma lims_last u k : length u = S (S k) -> nth (S (S k)) (cat_lims u) fnan = fadd (nth (S k) u fnan) (fdiv (fsub (nth (S k) u fnan) (nth k u fnan)) (fofZ 2)).
Proof.
  intros H. unfold cat_lims. fold (gaps u). cbn [nth]. rewrite app_nth2 by (rewrite map_length, combine_length, gaps_length; lia). rewrite map_length, combine_length, gaps_length, H.
  replace (S k - _)%nat with 0%nat by lia. cbn [nth]. unfold last64. rewrite gaps_length, H. replace (S (S k) - 1)%nat with (S k) by lia. replace (S k - 1)%nat with k by lia. now rewrite gaps_nth by lia.
Qed.

Definition spread (u : list b64) : Prop := forall i, (S i < length u)%nat -> apart (nth i u fnan) (nth (S i) u fnan).
Lemma lims_spec u : (2 <= length u)%nat -> (forall x, In x u -> tame x) -> spread u ->
  fins (cat_lims u) /\ (forall i, (i < length u)%nat -> val (nth i (cat_lims u) fnan) < val (nth i u fnan) < val (nth (S i) (cat_lims u) fnan)) /\
  Rabs (val (nth (length u) (cat_lims u) fnan)) <= bpow radix2 1002.
Proof.
  intros H2 T Sp. assert (Tn : forall i, (i < length u)%nat -> tame (nth i u fnan)) by (intros; apply T, nth_In; assumption).
  assert (M : forall i, (S i < length u)%nat -> fin (nth (S i) (cat_lims u) fnan) /\ val (nth i u fnan) < val (nth (S i) (cat_lims u) fnan) < val (nth (S i) u fnan)).
  { intros i Hi. rewrite lims_mid by exact Hi. pose proof (Sp i Hi) as A. destruct (add_half (nth i u fnan) (nth (S i) u fnan) (nth i u fnan)) as (F & V & _); auto; try (apply Tn; lia); [apply A|]. split; [exact F|lra]. }
  destruct (sub_half (nth 0 u fnan) (nth 1 u fnan)) as [F0 V0]; try (apply Tn; lia); [apply (Sp 0%nat); lia|]. rewrite <- lims_0 in F0, V0 by exact H2.
  assert (exists k, length u = S (S k)) as [k Hk] by (exists (length u - 2)%nat; lia).
  pose proof (Sp k ltac:(lia)) as A. destruct (add_half (nth k u fnan) (nth (S k) u fnan) (nth (S k) u fnan)) as (FL & VL & BL); auto; try (apply Tn; lia); [apply A|]. rewrite <- (lims_last u k Hk) in FL, VL, BL.
  assert (FI : forall i, (i < S (length u))%nat -> fin (nth i (cat_lims u) fnan)).
  { intros [|i] Hi; [exact F0|]. destruct (Nat.eq_dec (S i) (length u)) as [E|E]; [|apply M; lia]. rewrite E, Hk. exact FL. }
  split.
  - intros x Hx. destruct (In_nth _ _ fnan Hx) as (i & Hi & <-). rewrite lims_length in Hi by exact H2. now apply FI.
  - split; [|rewrite Hk; exact BL]. intros i Hi. split.
    + destruct i as [|i]; [exact V0|]. apply M. lia.
    + destruct (Nat.eq_dec (S i) (length u)) as [E|E]; [|apply M; lia]. replace i with (S k) by lia. apply VL.
Qed.
