(** FloatEdges: where the binary64 ALE asks the model. *)
From Coq Require Import Reals.
From Flocq Require Import Core.
From Flocq Require Import IEEE754.BinarySingleNaN.
From Verif Require Import Base Numpy Utils FloatModel FloatOpp FloatOppALE FloatRegionPDPProofs.
From Coq Require Import Lra.
Open Scope nat_scope.

(** comparisons on everything but NaN *)
Lemma lt_le_trans64 (x a b : b64) : Bltb x a = true -> Bleb a b = true -> Bltb x b = true.
Proof.
  destruct (is_finite x) eqn:Fx; destruct (is_finite a) eqn:Fa; destruct (is_finite b) eqn:Fb.
  - rewrite !Bltb_correct, Bleb_correct by assumption. unfold Rlt_bool, Rle_bool. destruct (Rcompare_spec (B2R x) (B2R a)); try discriminate.
    destruct (Rcompare_spec (B2R a) (B2R b)); try discriminate; destruct (Rcompare_spec (B2R x) (B2R b)); try reflexivity; lra.
  - destruct x as [[]| | |[]], a as [[]| | |[]], b as [|[]| |]; try discriminate; reflexivity.
  - destruct x as [[]| | |[]], a as [|[]| |], b as [[]| | |[]]; try discriminate; reflexivity.
  - destruct x as [[]| | |[]], a as [|[]| |], b as [|[]| |]; try discriminate; reflexivity.
  - destruct x as [|[]| |], a as [[]| | |[]], b as [[]| | |[]]; try discriminate; reflexivity.
  - destruct x as [|[]| |], a as [[]| | |[]], b as [|[]| |]; try discriminate; reflexivity.
  - destruct x as [|[]| |], a as [|[]| |], b as [[]| | |[]]; try discriminate; reflexivity.
  - destruct x as [|[]| |], a as [|[]| |], b as [|[]| |]; try discriminate; reflexivity.
Qed.
Lemma not_lt64 (x a : b64) : is_nan x = false -> is_nan a = false -> Bltb x a = false -> Bleb a x = true.
Proof.
  intros Nx Na. destruct (is_finite x) eqn:Fx; destruct (is_finite a) eqn:Fa.
  - rewrite Bltb_correct, Bleb_correct by assumption. unfold Rlt_bool, Rle_bool.
    destruct (Rcompare_spec (B2R x) (B2R a)); try discriminate; destruct (Rcompare_spec (B2R a) (B2R x)); try reflexivity; lra.
  - destruct x as [[]| | |[]], a as [|[]| |]; try discriminate; reflexivity.
  - destruct x as [|[]| |], a as [[]| | |[]]; try discriminate; reflexivity.
  - destruct x as [|[]| |], a as [|[]| |]; try discriminate; reflexivity.
Qed.
Lemma le_lt_trans64 (x a b : b64) : is_nan b = false -> Bleb a b = true -> Bltb x b = false -> is_nan x = false -> Bltb x a = false.
Proof. intros Nb L H Nx. destruct (Bltb x a) eqn:E; [|reflexivity]. rewrite (lt_le_trans64 x a b E L) in H. discriminate H. Qed.
Lemma le_nan_l (a b : b64) : Bleb a b = true -> is_nan a = false.
Proof. destruct a; try reflexivity. now destruct b. Qed.
Lemma le_nan_r (a b : b64) : Bleb a b = true -> is_nan b = false.
Proof. destruct b; try reflexivity. now destruct a as [[]|[]| |[]]. Qed.
Lemma lt_nan_r (a b : b64) : Bltb a b = true -> is_nan b = false.
Proof. destruct b; try reflexivity. now destruct a as [[]|[]| |[]]. Qed.

(** the limit before and the limit after, in an increasing or decreasing list *)
Lemma incr_tail a l : mono_incr64 (a :: l) = true -> mono_incr64 l = true.
Proof. unfold mono_incr64. destruct l as [|b l]; [reflexivity|]. cbn [combine tl forallb]. intros H. now apply andb_true_iff in H as [_ H]. Qed.
Lemma incr_count0 x l a : mono_incr64 (a :: l) = true -> Bltb x a = true -> count (fun b => negb (Bltb x b)) (a :: l) = 0.
Proof.
  revert a. induction l as [|b l IH]; intros a M H; unfold count; cbn [filter]; rewrite H; cbn [negb]; [reflexivity|].
  apply (IH b); [now apply incr_tail in M|]. unfold mono_incr64 in M. cbn in M. apply andb_true_iff in M as [M _]. exact (lt_le_trans64 x a b H M).
Qed.
Lemma incr_edges x l k : mono_incr64 l = true -> digitize64_1 l x = S k -> S k < length l -> is_nan x = false ->
  Bleb (nth k l fnan) x = true /\ Bltb x (nth (S k) l fnan) = true.
Proof.
  unfold digitize64_1. revert k. induction l as [|a l IH]; intros k M D L N; [cbn in L; lia|].
  destruct (Bltb x a) eqn:E; [rewrite (incr_count0 x l a M E) in D; discriminate D|].
  assert (D' : count (fun b => negb (Bltb x b)) l = k) by (unfold count in *; cbn [filter] in D; rewrite E in D; cbn in D; lia).
  destruct l as [|b l]; [cbn in L; lia|]. assert (M' := incr_tail _ _ M). unfold mono_incr64 in M. cbn in M. apply andb_true_iff in M as [M _].
  destruct k as [|k].
  - cbn [nth]. split; [apply not_lt64; auto; exact (le_nan_l a b M)|]. destruct (Bltb x b) eqn:E'; [reflexivity|]. unfold count in D'. cbn [filter] in D'. rewrite E' in D'. discriminate D'.
  - apply (IH k M' D'); [cbn in L |- *; lia|exact N].
Qed.
Lemma decr_tail a l : mono_decr64 (a :: l) = true -> mono_decr64 l = true.
Proof. unfold mono_decr64. destruct l as [|b l]; [reflexivity|]. cbn [combine tl forallb]. intros H. now apply andb_true_iff in H as [_ H]. Qed.
Lemma decr_count0 x l a : mono_decr64 (a :: l) = true -> Bltb x a = false -> is_nan x = false -> is_nan a = false -> count (fun b => Bltb x b) (a :: l) = 0.
Proof.
  revert a. induction l as [|b l IH]; intros a M H N Na; unfold count; cbn [filter]; rewrite H; [reflexivity|].
  assert (M' := decr_tail _ _ M). unfold mono_decr64 in M. cbn in M. apply andb_true_iff in M as [M _].
  apply (IH b); [exact M'|exact (le_lt_trans64 x b a Na M H N)|exact N|exact (le_nan_l b a M)].
Qed.
Lemma decr_edges x l k : mono_decr64 l = true -> digitize64_1d l x = S k -> S k < length l -> is_nan x = false ->
  Bltb x (nth k l fnan) = true /\ Bleb (nth (S k) l fnan) x = true.
Proof.
  unfold digitize64_1d. revert k. induction l as [|a l IH]; intros k M D L N; [cbn in L; lia|].
  destruct l as [|b l]; [cbn in L; lia|]. assert (M' := decr_tail _ _ M). assert (M0 := M). unfold mono_decr64 in M. cbn in M. apply andb_true_iff in M as [M _].
  destruct (Bltb x a) eqn:E; [|rewrite (decr_count0 x (b :: l) a M0 E N (le_nan_r b a M)) in D; discriminate D].
  assert (D' : count (fun b => Bltb x b) (b :: l) = k) by (unfold count in *; cbn [filter] in D |- *; rewrite E in D; cbn [length] in D; congruence).
  destruct k as [|k].
  - cbn [nth]. split; [exact E|]. apply not_lt64; [exact N|exact (le_nan_l b a M)|]. destruct (Bltb x b) eqn:E'; [|reflexivity]. unfold count in D'. cbn [filter] in D'. rewrite E' in D'. discriminate D'.
  - apply (IH k M' D'); [cbn in L |- *; lia|exact N].
Qed.

(** [x] lies between the two numbers *)
Definition between (x a b : b64) : bool := (Bleb a x && Bltb x b) || (Bleb b x && Bltb x a).
Lemma digitize_edges xs l ind j : digitize64 xs l = Ok ind -> j < length xs -> is_nan (nth j xs fnan) = false ->
  0 < nth j ind 0 -> nth j ind 0 < length l -> between (nth j xs fnan) (nth (Nat.pred (nth j ind 0)) l fnan) (nth (nth j ind 0) l fnan) = true.
Proof.
  unfold digitize64. intros H J N P Q. unfold between.
  destruct (mono_incr64 l) eqn:MI.
  - apply ok_inj in H. subst ind. rewrite (nth_indep _ 0 (digitize64_1 l fnan)), map_nth in P, Q |- * by now rewrite map_length.
    destruct (digitize64_1 l (nth j xs fnan)) as [|k] eqn:D; [lia|]. cbn [Nat.pred]. destruct (incr_edges _ l k MI D Q N) as [A B]. now rewrite A, B.
  - destruct (mono_decr64 l) eqn:MD; [|discriminate H]. apply ok_inj in H. subst ind. rewrite (nth_indep _ 0 (digitize64_1d l fnan)), map_nth in P, Q |- * by now rewrite map_length.
    destruct (digitize64_1d l (nth j xs fnan)) as [|k] eqn:D; [lia|]. cbn [Nat.pred]. destruct (decr_edges _ l k MD D Q N) as [A B]. rewrite A, B. now rewrite andb_comm, orb_true_r.
Qed.
