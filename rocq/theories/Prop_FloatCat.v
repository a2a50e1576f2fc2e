(** Prop_FloatCat: C107, categorical features in binary64. *)
From Coq Require Import Reals.
From Flocq Require Import Core.
From Flocq Require Import IEEE754.BinarySingleNaN.
From Verif Require Import Base Numpy NumpyFacts FloatModel FloatFacts FloatGrid FloatBins FloatProofs FloatMean FloatAcc FloatCat.
From Coq Require Import Lra.
Open Scope R_scope.

Lemma cat_limits_eq xs m : (2 <= length (unique64 xs))%nat ->
  cat_limits64 xs m = Ok (if all_valid64 xs m (cat_lims (unique64 xs)) then Some (cat_lims (unique64 xs)) else None).
Proof.
  intros H. set (u := unique64 xs) in *. unfold cat_limits64. fold u. fold (gaps u). pose proof (gaps_length u) as G.
  rewrite getn_nth by lia. cbn [bind]. rewrite getn_nth by lia. cbn [bind]. rewrite getz_last by lia. cbn [bind]. rewrite getz_last by lia. cbn [bind]. reflexivity.
Qed.

Lemma widen_le x : fin x -> Rabs (val x) <= bpow radix2 1002 -> fin (fadd x EPS64) /\ val x <= val (fadd x EPS64).
Proof.
  intros F B. destruct (fadd_val x EPS64 F EPS64_fin) as [V F']. { apply EPS_bound; auto. eapply Rle_trans; [exact B|]. apply bpow_le. lia. }
  split; [exact F'|]. rewrite V, <- (rnd_val x) at 1. apply rnd_le. pose proof EPS64_bounds. pose proof (bpow_gt_0 radix2 (-27)). lra.
Qed.

Lemma count_ext_in {A} (p q : A -> bool) l : (forall x, In x l -> p x = q x) -> count p l = count q l.
Proof. intros H. unfold count. f_equal. apply filter_ext_in. exact H. Qed.

Definition distinct_values (xs : list b64) : nat := length (unique64 xs).
Remark distinct_values_spec xs : fins xs -> exists u, length u = distinct_values xs /\ (forall x, In x u -> In x xs) /\ (forall x, In x xs -> exists y, In y u /\ val y = val x) /\
  (forall i j, (i < j)%nat -> (j < length u)%nat -> val (nth i u fnan) < val (nth j u fnan)).
Proof.
  intros F. destruct (unique64_spec xs F) as (I & I1 & I2). exists (unique64 xs). split; [reflexivity|]. split; [exact I1|]. split; [exact I2|]. intros i j. now apply incr_nth.
Qed.

(** The values of a categorical feature, any two of which differ by at least 2^-50 of the larger one (and 2^-1000): the
    limits Fixed.find returns are increasing, there is one bin per distinct value, every value lies strictly inside its bin
    and two instances share a bin exactly when they have the same value. The limits are refused exactly when some value occurs
    less than min_points times. *)
Theorem C107_partial xs lo hi nof_bins m cat_limit :
  fins xs -> (2 <= distinct_values xs <= cat_limit)%nat ->
  (forall x, In x xs -> Rabs (val x) <= bpow radix2 1000) ->
  (forall x y, In x xs -> In y xs -> val x < val y ->
     bpow radix2 (-1000) <= val y - val x /\ Rabs (val x) <= bpow radix2 50 * (val y - val x) /\ Rabs (val y) <= bpow radix2 50 * (val y - val x)) ->
  exists l, fixed_find64 xs lo hi nof_bins m cat_limit = Ok (if forallb (fun x => Nat.leb m (count (Beqb x) xs)) xs then Some l else None) /\
    length l = S (distinct_values xs) /\ fins l /\ sorted64 (widen64 l) /\
    (forall x, In x xs -> exists k, digitize64_1 (widen64 l) x = S k /\ (S k < length l)%nat /\ val (nth k l fnan) < val x < val (nth (S k) l fnan)) /\
    (forall x y, In x xs -> In y xs -> (digitize64_1 (widen64 l) x = digitize64_1 (widen64 l) y <-> val x = val y)).
Proof.
  intros F [H2 HC] B G. unfold distinct_values in *. destruct (unique64_spec xs F) as (I & I1 & I2). set (u := unique64 xs) in *.
  assert (T : forall x, In x u -> tame x) by (intros x Hx; split; [apply F, I1, Hx|apply B, I1, Hx]).
  assert (Sp : spread u). { intros i Hi. apply G; [apply I1, nth_In; lia|apply I1, nth_In; lia|]. apply incr_nth; auto. }
  destruct (lims_spec u H2 T Sp) as (FL & ML & BL). pose proof (lims_length u H2) as LL. set (l := cat_lims u) in *.
  (* where the values are *)
  assert (IX : forall x, In x xs -> exists i, (i < length u)%nat /\ val (nth i u fnan) = val x).
  { intros x Hx. destruct (I2 x Hx) as (y & Hy & E). destruct (In_nth _ _ fnan Hy) as (i & Hi & <-). exists i. auto. }
  assert (MO : forall i j, (i < j)%nat -> (j < length u)%nat -> val (nth i u fnan) < val (nth j u fnan)) by (intros; apply incr_nth; auto).
  assert (LI : forall i j, (i <= j)%nat -> (j <= length u)%nat -> val (nth i l fnan) <= val (nth j l fnan)).
  { intros i j Hij Hj. induction j as [|j IHj]; [replace i with 0%nat by lia; lra|]. destruct (Nat.eq_dec i (S j)) as [->|]; [lra|]. specialize (IHj ltac:(lia) ltac:(lia)). specialize (ML j ltac:(lia)). lra. }
  assert (WL : length (widen64 l) = S (length u)) by (rewrite widen64_length; exact LL).
  assert (Wn : forall i, (i < length u)%nat -> nth i (widen64 l) fnan = nth i l fnan). { intros i Hi. rewrite widen64_nth by lia. destruct (Nat.eqb_spec i (length l - 1)); [lia|reflexivity]. }
  assert (We : nth (length u) (widen64 l) fnan = fadd (nth (length u) l fnan) EPS64). { rewrite widen64_nth by lia. replace (length l - 1)%nat with (length u) by lia. now rewrite Nat.eqb_refl. }
  destruct (widen_le (nth (length u) l fnan)) as [FW VW]; [apply fins_nth; auto; lia|exact BL|].
  assert (FWl : fins (widen64 l)).
  { intros x Hx. destruct (In_nth _ _ fnan Hx) as (i & Hi & <-). destruct (Nat.eq_dec i (length u)) as [->|]; [rewrite We; exact FW|]. rewrite Wn by lia. apply fins_nth; auto. lia. }
  assert (SW : sorted64 (widen64 l)).
  { intros i Hi. rewrite WL in Hi. rewrite (Wn i) by lia. destruct (Nat.eq_dec (S i) (length u)) as [E|E]; [rewrite E, We; specialize (LI i (length u) ltac:(lia) ltac:(lia)); lra|].
    rewrite Wn by lia. apply LI; lia. }
  assert (DG : forall x i, In x xs -> (i < length u)%nat -> val (nth i u fnan) = val x -> digitize64_1 (widen64 l) x = S i).
  { intros x i Hx Hi E. pose proof (digitize64_iff (widen64 l) x FWl SW (F x Hx)) as D. pose proof (ML i Hi) as [M1 M2]. rewrite E in M1, M2.
    pose proof (D i ltac:(lia)) as D1. pose proof (D (S i) ltac:(lia)) as D2. rewrite Wn in D1 by lia.
    assert (val x < val (nth (S i) (widen64 l) fnan)). { destruct (Nat.eq_dec (S i) (length u)) as [E'|]; [rewrite E', We; rewrite E' in M2; lra|]. rewrite Wn by lia. exact M2. }
    assert (i < digitize64_1 (widen64 l) x)%nat by (apply D1; lra). assert (~ (S i < digitize64_1 (widen64 l) x)%nat) by (rewrite D2; lra). lia. }
  exists l. split; [|split; [exact LL|split; [exact FL|split; [exact SW|split]]]].
  - unfold fixed_find64. fold u. destruct (Nat.leb_spec (length u) cat_limit); [|lia]. rewrite cat_limits_eq by exact H2. fold u. fold l. f_equal.
    (* the validity check *)
    assert (CI : forall i, (i < length u)%nat -> count (fun x => Bleb (nth i l fnan) x && Bleb x (nth (S i) l fnan)) xs = count (Beqb (nth i u fnan)) xs).
    { intros i Hi. apply count_ext_in. intros x Hx. pose proof (F x Hx) as Fx. assert (Fu : fin (nth i u fnan)) by (apply T, nth_In, Hi).
      apply eq_true_iff_eq. rewrite andb_true_iff, !fle_val by (auto; apply fins_nth; auto; lia). rewrite Beqb_correct by assumption.
      destruct (IX x Hx) as (j & Hj & Ej). pose proof (ML j Hj) as [N1 N2]. pose proof (ML i Hi) as [M1 M2]. split.
      - intros [Q1 Q2]. destruct (lt_eq_lt_dec i j) as [[C| ->]|C].
        + pose proof (LI (S i) j ltac:(lia) ltac:(lia)). lra.
        + apply Req_bool_true. exact Ej.
        + pose proof (LI (S j) i ltac:(lia) ltac:(lia)). lra.
      - destruct (Req_bool_spec (B2R (nth i u fnan)) (B2R x)) as [E'|]; [intros _|discriminate]. change (B2R (nth i u fnan)) with (val (nth i u fnan)) in E'. change (B2R x) with (val x) in E'. lra. }
    match goal with |- (if ?a then _ else _) = (if ?b then _ else _) => assert (EQ : a = b); [|now rewrite EQ] end.
    apply eq_true_iff_eq. unfold all_valid64. rewrite !forallb_forall. split.
    + intros HH x Hx. destruct (IX x Hx) as (i & Hi & E).
      assert (Q : In (nth i l fnan, nth (S i) l fnan) (combine l (tl l))).
      { rewrite <- (nth_tl l i), <- nth_combine by (rewrite ?tl_length; lia). apply nth_In. rewrite combine_length, tl_length. lia. }
      specialize (HH _ Q). unfold bin_valid64 in HH. cbn [fst snd] in HH. rewrite CI in HH by exact Hi. replace (count (Beqb x) xs) with (count (Beqb (nth i u fnan)) xs); [exact HH|].
      apply count_ext_in. intros y Hy. rewrite !Beqb_correct by (first [apply F; assumption|apply T, nth_In, Hi]). change (B2R (nth i u fnan)) with (val (nth i u fnan)). now rewrite E.
    + intros HH [a b] Hab. destruct (In_nth _ _ (fnan, fnan) Hab) as (i & Hi & E). rewrite combine_length, tl_length in Hi.
      rewrite nth_combine in E by (rewrite ?tl_length; lia). rewrite nth_tl in E. assert (a = nth i l fnan /\ b = nth (S i) l fnan) as [-> ->] by (split; congruence).
      unfold bin_valid64. cbn [fst snd]. rewrite CI by lia. apply HH, I1, nth_In. lia.
  - intros x Hx. destruct (IX x Hx) as (i & Hi & E). exists i. split; [now apply DG|]. split; [lia|]. rewrite <- E. apply ML, Hi.
  - intros x y Hx Hy. destruct (IX x Hx) as (i & Hi & Ei). destruct (IX y Hy) as (j & Hj & Ej). rewrite (DG x i), (DG y j) by assumption. split.
    + intros E. replace j with i in Ej by lia. congruence.
    + intros E. f_equal. destruct (lt_eq_lt_dec i j) as [[C|C]|C]; [|exact C|]; apply MO in C; auto; lra.
Qed.

(** Without the gap: the distinct values 1 and 1 + 2^-52 (say 1.0 and the result of some arithmetic that should give 1.0) end in
    the same bin, the second one of two; the first bin is empty. *)
Definition near_one : b64 := fadd (fofZ 1) (fdiv (fofZ 1) (fofZ (2 ^ 52))).
Theorem C107_refuted :
  exists xs l, distinct_values xs = 2%nat /\ fixed_find64 xs (fofZ 0) (fofZ 2) 20 0 15 = Ok (Some l) /\ length l = 3%nat /\
  Bltb (nth 0 xs fnan) (nth 1 xs fnan) = true /\ digitize64 xs (widen64 l) = Ok [2; 2]%nat.
Proof.
  pose (xs := [fofZ 1; near_one]).
  assert (C : distinct_values xs = 2%nat /\ match fixed_find64 xs (fofZ 0) (fofZ 2) 20 0 15 with
              | Ok (Some l) => length l = 3%nat /\ Bltb (nth 0 xs fnan) (nth 1 xs fnan) = true /\ digitize64 xs (widen64 l) = Ok [2; 2]%nat
              | _ => False end) by (vm_compute; repeat split; reflexivity).
  destruct C as [C1 C]. destruct (fixed_find64 xs (fofZ 0) (fofZ 2) 20 0 15) as [[l|]|] eqn:E; try destruct C. exists xs, l. auto.
Qed.

Print Assumptions C107_partial. Print Assumptions C107_refuted.

(** a non-trivial case: the five values -1, 0, 2, 7, 8 in some order with repetitions *)
Definition cat_zs : list Z := [7; 0; 2; 7; -1; 8; 0; 2]%Z.
Definition cat_xs : list b64 := map fofZ cat_zs.
Example C107_hypotheses : fins cat_xs /\ distinct_values cat_xs = 5%nat /\ (forall x, In x cat_xs -> Rabs (val x) <= bpow radix2 1000) /\
  (forall x y, In x cat_xs -> In y cat_xs -> val x < val y ->
     bpow radix2 (-1000) <= val y - val x /\ Rabs (val x) <= bpow radix2 50 * (val y - val x) /\ Rabs (val y) <= bpow radix2 50 * (val y - val x)).
Proof.
  assert (V : forall z, (Z.abs z <= 10)%Z -> val (fofZ z) = IZR z /\ fin (fofZ z)) by (intros; apply fofZ_val; lia).
  assert (Z10 : forall z, In z cat_zs -> (Z.abs z <= 10)%Z) by (intros z Hz; cbn in Hz; lia).
  assert (B : 10 <= bpow radix2 50 /\ 10 <= bpow radix2 1000 /\ bpow radix2 (-1000) <= 1).
  { assert (16 <= bpow radix2 50) by (change 16 with (bpow radix2 4); apply bpow_le; lia). assert (16 <= bpow radix2 1000) by (change 16 with (bpow radix2 4); apply bpow_le; lia).
    assert (bpow radix2 (-1000) <= 1) by (change 1 with (bpow radix2 0); apply bpow_le; lia). lra. }
  repeat split.
  - intros x Hx. apply in_map_iff in Hx as (z & <- & Hz). now apply V, Z10.
  - intros x Hx. apply in_map_iff in Hx as (z & <- & Hz). rewrite (proj1 (V z (Z10 z Hz))), <- abs_IZR. apply Rle_trans with 10; [apply IZR_le, Z10, Hz|lra].
  - apply in_map_iff in H as (z & <- & Hz). apply in_map_iff in H0 as (z' & <- & Hz'). rewrite (proj1 (V z (Z10 z Hz))), (proj1 (V z' (Z10 z' Hz'))) in *. apply lt_IZR in H1. rewrite <- minus_IZR.
    apply Rle_trans with 1; [lra|]. apply IZR_le. lia.
  - apply in_map_iff in H as (z & <- & Hz). apply in_map_iff in H0 as (z' & <- & Hz'). rewrite (proj1 (V z (Z10 z Hz))), (proj1 (V z' (Z10 z' Hz'))) in *. apply lt_IZR in H1. rewrite <- minus_IZR, <- abs_IZR.
    apply Rle_trans with (10 * 1); [rewrite Rmult_1_r; apply IZR_le, Z10, Hz|]. apply Rmult_le_compat; try lra. apply IZR_le. lia.
  - apply in_map_iff in H as (z & <- & Hz). apply in_map_iff in H0 as (z' & <- & Hz'). rewrite (proj1 (V z (Z10 z Hz))), (proj1 (V z' (Z10 z' Hz'))) in *. apply lt_IZR in H1. rewrite <- minus_IZR, <- abs_IZR.
    apply Rle_trans with (10 * 1); [rewrite Rmult_1_r; apply IZR_le, Z10, Hz'|]. apply Rmult_le_compat; try lra. apply IZR_le. lia.
Qed.
