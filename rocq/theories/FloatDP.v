(** FloatDP: the dynamic-programming binning in binary64. The table holds, for every grid point, the smallest sequential float sum of
    move costs over all paths to it (float addition is monotone), so the returned path is optimal among all paths. *)
From Coq Require Import Reals.
From Flocq Require Import Core.
From Flocq Require Import IEEE754.BinarySingleNaN.
From Verif Require Import Base Numpy NumpyFacts FloatModel FloatFacts FloatGrid FloatBins FloatAcc FloatProofs FloatAdapt.
From Coq Require Import Lra.
Open Scope R_scope.

(** nonnegative, at most n 2^600 *)
Definition cap : R := bpow radix2 600.
Definition fits (n : nat) (x : b64) : Prop := fin x /\ 0 <= val x <= IZR (Z.of_nat n) * cap.

Lemma cap_fmt n : (Z.of_nat n <= 2 ^ 50)%Z -> rnd (IZR (Z.of_nat n) * cap) = IZR (Z.of_nat n) * cap.
Proof.
  intros H. apply round_generic; [typeclasses eauto|]. change fexp64 with (FLT_exp (-1074) 53). apply generic_format_FLT. exists (Float radix2 (Z.of_nat n) 600); cbn [Fnum Fexp]; [reflexivity| |lia].
  rewrite Z.abs_eq by lia. eapply Z.le_lt_trans; [exact H|]. reflexivity.
Qed.
Lemma fits_big n x : fits n x -> (Z.of_nat n <= 2 ^ 50)%Z -> Rabs (val x) <= bpow radix2 700.
Proof.
  intros [_ [H1 H2]] H. rewrite Rabs_pos_eq by exact H1. eapply Rle_trans; [exact H2|]. apply Rle_trans with (bpow radix2 50 * cap); [|unfold cap; rewrite <- bpow_plus; apply bpow_le; lia].
  apply Rmult_le_compat_r; [apply bpow_ge_0|]. change (bpow radix2 50) with (IZR (2 ^ 50)). now apply IZR_le.
Qed.
Lemma fadd_fits n x y : fits n x -> fits 1 y -> (Z.of_nat n < 2 ^ 50)%Z -> fits (S n) (fadd x y) /\ val (fadd x y) = rnd (val x + val y) /\ val x <= val (fadd x y) /\ val y <= val (fadd x y).
Proof.
  intros Hx Hy Hn. pose proof (fits_big n x Hx ltac:(lia)) as Bx. pose proof (fits_big 1 y Hy ltac:(cbn; lia)) as By. destruct Hx as [Fx [X1 X2]]. destruct Hy as [Fy [Y1 Y2]].
  destruct (fadd_val x y Fx Fy) as [V F].
  { eapply Rle_trans; [apply Rabs_triang|]. apply Rle_trans with (2 * bpow radix2 700); [lra|]. change 2 with (bpow radix2 1). rewrite <- bpow_plus. apply bpow_le. lia. }
  split; [|split; [exact V|split]].
  - split; [exact F|]. rewrite V. split; [apply rnd_nonneg; lra|]. rewrite <- (cap_fmt (S n)) by lia. apply rnd_le. rewrite Nat2Z.inj_succ, succ_IZR. change (IZR (Z.of_nat 1)) with 1 in Y2. lra.
  - rewrite V. apply Rle_trans with (rnd (val x)); [rewrite rnd_val; apply Rle_refl|]. apply rnd_le. lra.
  - rewrite V. apply Rle_trans with (rnd (val y)); [rewrite rnd_val; apply Rle_refl|]. apply rnd_le. lra.
Qed.
Lemma fits_0 n : fits n fzero. Proof. split; [reflexivity|]. change (val fzero) with 0. split; [lra|]. apply Rmult_le_pos; [apply IZR_le; lia|apply bpow_ge_0]. Qed.
Lemma fits_le n n' x : fits n x -> (n <= n')%nat -> fits n' x.
Proof. intros [F [H1 H2]] H. split; [exact F|]. split; [exact H1|]. eapply Rle_trans; [exact H2|]. apply Rmult_le_compat_r; [apply bpow_ge_0|]. apply IZR_le. lia. Qed.

(** np.min / np.argmin of finite values *)
Lemma argmin_spec l : forall best bi j, fin best -> fins l -> let '(v, k) := argmin64 best bi j l in
  (v = best /\ k = bi \/ exists i, (i < length l)%nat /\ k = (j + i)%nat /\ v = nth i l fnan) /\ fin v /\ val v <= val best /\ forall i, (i < length l)%nat -> val v <= val (nth i l fnan).
Proof.
  induction l as [|a l IH]; intros best bi j Fb F; cbn [argmin64]; [split; [now left|]; split; [exact Fb|]; split; [lra|]; cbn; lia|].
  assert (Fa : fin a) by (apply F; now left). assert (N1 : is_nan best = false) by (destruct best; try reflexivity; discriminate Fb). assert (N2 : is_nan a = false) by (destruct a; try reflexivity; discriminate Fa).
  rewrite N1, N2. cbn [negb andb orb]. destruct (Bltb a best) eqn:E.
  - apply flt_val in E; auto. specialize (IH a j (S j) Fa (fins_tl _ _ F)). destruct (argmin64 a j (S j) l) as [v k]. destruct IH as (I1 & I2 & I3 & I4). split; [|split; [exact I2|split; [lra|]]].
    + right. destruct I1 as [[-> ->]|(i & Hi & -> & ->)]; [exists 0%nat; split; [cbn; lia|]; split; [lia|reflexivity]|exists (S i); split; [cbn; lia|]; split; [lia|reflexivity]].
    + intros [|i] Hi; cbn [nth]; [exact I3|]. apply I4. cbn in Hi. lia.
  - assert (E' : val best <= val a) by (apply fnlt_val; auto; now rewrite E). specialize (IH best bi (S j) Fb (fins_tl _ _ F)). destruct (argmin64 best bi (S j) l) as [v k]. destruct IH as (I1 & I2 & I3 & I4). split; [|split; [exact I2|split; [exact I3|]]].
    + destruct I1 as [[-> ->]|(i & Hi & -> & ->)]; [now left|right; exists (S i); split; [cbn; lia|]; split; [lia|reflexivity]].
    + intros [|i] Hi; cbn [nth]; [lra|]. apply I4. cbn in Hi. lia.
Qed.
Lemma min_argmin_spec l : l <> [] -> fins l -> let '(v, k) := min_argmin64 l in (k < length l)%nat /\ v = nth k l fnan /\ forall i, (i < length l)%nat -> val v <= val (nth i l fnan).
Proof.
  destruct l as [|a l]; [congruence|]. intros _ F. cbn [min_argmin64]. pose proof (argmin_spec l a 0 1 (F a (or_introl eq_refl)) (fins_tl _ _ F)) as A. destruct (argmin64 a 0 1 l) as [v k].
  destruct A as (A1 & A2 & A3 & A4). destruct A1 as [[-> ->]|(i & Hi & -> & ->)].
  - split; [cbn; lia|]. split; [reflexivity|]. intros [|i] Hi; cbn [nth]; [lra|]. apply A4. cbn in Hi. lia.
  - split; [cbn; lia|]. split; [reflexivity|]. intros [|i'] Hi'; cbn [nth]; [exact A3|]. apply A4. cbn in Hi'. lia.
Qed.

Section Abstract.
  Variables (K : nat) (c : nat -> nat -> b64).
  Hypotheses (Hc : forall i j, (i <= K)%nat -> (j <= K)%nat -> fits 1 (c i j)) (HK : (Z.of_nat K + 1 <= 2 ^ 50)%Z) (K1 : (1 <= K)%nat).

  (** the cost of a path, summed from left to right *)
  Fixpoint walk (acc : b64) (cur : nat) (js : list nat) : b64 := match js with [] => acc | j :: js' => walk (fadd acc (c cur j)) j js' end.
  Definition inside (js : list nat) : Prop := forall j, In j js -> (j <= K)%nat.

  Lemma walk_app js : forall acc cur j, walk acc cur (js ++ [j]) = fadd (walk acc cur js) (c (last js cur) j).
  Proof.
    induction js as [|a js IH]; intros acc cur j; [reflexivity|]. cbn [app walk]. rewrite IH. destruct js as [|b js]; [reflexivity|]. cbn [last]. f_equal. f_equal. clear. revert b. induction js as [|d js IH]; intros b; [reflexivity|]. cbn [last] in *. apply IH.
  Qed.
  Lemma walk_fits js : forall n acc cur, fits n acc -> (cur <= K)%nat -> inside js -> (Z.of_nat (n + length js) <= 2 ^ 50)%Z -> fits (n + length js) (walk acc cur js) /\ val acc <= val (walk acc cur js).
  Proof.
    induction js as [|j js IH]; intros n acc cur Fa Hcur Hin Hn; cbn [walk length] in *; [rewrite Nat.add_0_r; split; [exact Fa|lra]|].
    assert (Hj : (j <= K)%nat) by (apply Hin; now left). destruct (fadd_fits n acc (c cur j) Fa (Hc cur j Hcur Hj) ltac:(lia)) as (G1 & G2 & G3 & _).
    destruct (IH (S n) (fadd acc (c cur j)) j G1 Hj) as [I1 I2]; [intros k Hk; apply Hin; now right|lia|]. split; [replace (n + S (length js))%nat with (S n + length js)%nat by lia; exact I1|lra].
  Qed.

  Definition column (prev : list b64) : list (b64 * nat) :=
    map (fun next => min_argmin64 (map (fun before => fadd (nth before prev fnan) (c before next)) (seq 0 (K + 1)))) (seq 0 (K + 1)).
  Fixpoint columns (n : nat) (col : list b64) (acc : list (list nat)) : list (list nat) :=
    match n with O => acc | S n' => let d := column col in columns n' (map fst d) (map snd d :: acc) end.

  (** after k columns *)
  Definition best (k : nat) (col : list b64) (acc : list (list nat)) : Prop :=
    length col = (K + 1)%nat /\ (forall j, (j <= K)%nat -> fits (S k) (nth j col fnan)) /\
    (forall js, length js = S k -> inside js -> val (nth (last js 0%nat) col fnan) <= val (walk fzero 0 js)) /\
    (forall j, (j <= K)%nat -> let p := rev (backtrack64 j acc) ++ [j] in length p = S k /\ inside p /\ val (walk fzero 0 p) = val (nth j col fnan)).

  Lemma nth_seq_map {A} (h : nat -> A) j d : (j <= K)%nat -> nth j (map h (seq 0 (K + 1))) d = h j.
  Proof. intros H. rewrite (nth_indep _ d (h 0%nat)) by (rewrite map_length, seq_length; lia). rewrite (map_nth h), seq_nth by lia. reflexivity. Qed.
  Lemma last_in js (j : nat) : js <> [] -> In (last js j) js.
  Proof. intros H. destruct js as [|a js]; [congruence|]. clear H. revert a. induction js as [|b js IH]; intros a; [now left|]. right. apply (IH b). Qed.
  Lemma fzero_add y : fits 1 y -> val (fadd fzero y) = val y.
  Proof. intros H. destruct (fadd_fits 0 fzero y (fits_0 0) H ltac:(cbn; lia)) as (_ & -> & _). change (val fzero) with 0. rewrite Rplus_0_l. apply rnd_val. Qed.
  Lemma add_zero n x : fits n x -> (Z.of_nat n < 2 ^ 50)%Z -> val (fadd x fzero) = val x.
  Proof. intros H Hn. destruct (fadd_fits n x fzero H (fits_0 1) Hn) as (_ & -> & _). change (val fzero) with 0. rewrite Rplus_0_r. apply rnd_val. Qed.

  Lemma best_start : best 0 (map (c 0) (seq 0 (K + 1))) [].
  Proof.
    split; [now rewrite map_length, seq_length|]. split; [intros j Hj; rewrite nth_seq_map by exact Hj; apply Hc; lia|]. split.
    - intros js L Hin. destruct js as [|j [|]]; try discriminate L. cbn [last walk]. assert (Hj : (j <= K)%nat) by (apply Hin; now left). rewrite nth_seq_map, fzero_add by (try exact Hj; apply Hc; lia). lra.
    - intros j Hj p. unfold p. cbn [backtrack64 rev app]. split; [reflexivity|]. split; [intros i [<-|[]]; exact Hj|]. cbn [walk]. rewrite nth_seq_map, fzero_add by (try exact Hj; apply Hc; lia). reflexivity.
  Qed.

  Lemma best_step k col acc : (Z.of_nat k + 2 < 2 ^ 50)%Z -> best k col acc -> best (S k) (map fst (column col)) (map snd (column col) :: acc).
  Proof.
    intros Hk (L & Fi & Lo & At). set (cell := fun next => min_argmin64 (map (fun before => fadd (nth before col fnan) (c before next)) (seq 0 (K + 1)))).
    assert (E : forall j, (j <= K)%nat -> nth j (map fst (column col)) fnan = fst (cell j) /\ nth j (map snd (column col)) 0%nat = snd (cell j)).
    { intros j Hj. unfold column. rewrite !map_map. fold cell. split; [rewrite (nth_seq_map (fun x => fst (cell x)))|rewrite (nth_seq_map (fun x => snd (cell x)))]; auto. }
    assert (Cs : forall j, (j <= K)%nat -> (snd (cell j) <= K)%nat /\ fst (cell j) = fadd (nth (snd (cell j)) col fnan) (c (snd (cell j)) j) /\
               forall b, (b <= K)%nat -> val (fst (cell j)) <= val (fadd (nth b col fnan) (c b j))).
    { intros j Hj. unfold cell. set (row := map (fun before => fadd (nth before col fnan) (c before j)) (seq 0 (K + 1))).
      assert (Lr : length row = (K + 1)%nat) by (unfold row; now rewrite map_length, seq_length).
      assert (Fr : fins row). { intros x Hx. apply in_map_iff in Hx as (b & <- & Hb). apply in_seq in Hb. apply (fadd_fits (S k)); [apply Fi; lia|apply Hc; lia|lia]. }
      pose proof (min_argmin_spec row ltac:(intros E0; rewrite E0 in Lr; cbn in Lr; lia) Fr) as M. destruct (min_argmin64 row) as [v b]. destruct M as (M1 & M2 & M3). cbn [fst snd]. rewrite Lr in *.
      split; [lia|]. unfold row in M2, M3. split; [rewrite M2; apply (nth_seq_map (fun b => fadd (nth b col fnan) (c b j))); lia|].
      intros b' Hb'. specialize (M3 b' ltac:(lia)). rewrite (nth_seq_map (fun b => fadd (nth b col fnan) (c b j))) in M3 by exact Hb'. exact M3. }
    split; [unfold column; rewrite !map_length, seq_length; reflexivity|]. split; [|split].
    - intros j Hj. rewrite (proj1 (E j Hj)). destruct (Cs j Hj) as (C1 & -> & _). apply fadd_fits; [now apply Fi|now apply Hc|lia].
    - intros js Ljs Hin. destruct (exists_last (l := js)) as (js' & j & ->); [intros E0; rewrite E0 in Ljs; discriminate Ljs|].
      rewrite last_last. rewrite app_length in Ljs. cbn [length] in Ljs. assert (Hj : (j <= K)%nat) by (apply Hin, in_or_app; right; now left). assert (Hin' : inside js') by (intros i Hi; apply Hin, in_or_app; now left).
      rewrite walk_app. rewrite (proj1 (E j Hj)). destruct (Cs j Hj) as (_ & _ & C3). set (b := last js' 0%nat).
      assert (Hb : (b <= K)%nat) by (apply Hin', last_in; intros E0; rewrite E0 in Ljs; cbn in Ljs; lia).
      eapply Rle_trans; [apply (C3 b Hb)|]. specialize (Lo js' ltac:(lia) Hin'). fold b in Lo.
      destruct (walk_fits js' 0 fzero 0 (fits_0 0) ltac:(lia) Hin' ltac:(lia)) as [W _]. replace (0 + length js')%nat with (S k) in W by lia.
      destruct (fadd_fits (S k) (nth b col fnan) (c b j) (Fi b Hb) (Hc b j Hb Hj) ltac:(lia)) as (_ & -> & _). destruct (fadd_fits (S k) (walk fzero 0 js') (c b j) W (Hc b j Hb Hj) ltac:(lia)) as (_ & -> & _).
      apply rnd_le. lra.
    - intros j Hj p. unfold p. cbn [backtrack64]. rewrite (proj2 (E j Hj)), (proj1 (E j Hj)). destruct (Cs j Hj) as (C1 & C2 & _). set (b := snd (cell j)) in *. cbn [rev].
      destruct (At b C1) as (A1 & A2 & A3). set (q := rev (backtrack64 b acc) ++ [b]) in *. split; [rewrite app_length, A1; cbn; lia|].
      split. { intros i Hi. apply in_app_or in Hi as [Hi|[<-|[]]]; [now apply A2|exact Hj]. }
      rewrite walk_app, C2. assert (Eb : last q 0%nat = b) by (unfold q; apply last_last). rewrite Eb.
      destruct (walk_fits q 0 fzero 0 (fits_0 0) ltac:(lia) A2 ltac:(lia)) as [W _]. replace (0 + length q)%nat with (S k) in W by lia.
      destruct (fadd_fits (S k) (nth b col fnan) (c b j) (Fi b C1) (Hc b j C1 Hj) ltac:(lia)) as (_ & -> & _). destruct (fadd_fits (S k) (walk fzero 0 q) (c b j) W (Hc b j C1 Hj) ltac:(lia)) as (_ & -> & _). now rewrite A3.
  Qed.

  Lemma best_columns n : forall k col acc, (Z.of_nat (k + n) + 1 < 2 ^ 50)%Z -> best k col acc -> exists col', best (k + n) col' (columns n col acc).
  Proof.
    induction n as [|n IH]; intros k col acc Hk B; [exists col; rewrite Nat.add_0_r; exact B|]. cbn [columns]. replace (k + S n)%nat with (S k + n)%nat by lia. apply IH; [lia|]. apply best_step; [lia|exact B].
  Qed.

  (** the moves of the returned path *)
  Definition found : list nat := rev (backtrack64 K (columns (K - 1) (map (c 0) (seq 0 (K + 1))) [])) ++ [K].
  Lemma found_best : length found = K /\ inside found /\ last found 0%nat = K /\ forall js, length js = K -> inside js -> last js 0%nat = K -> val (walk fzero 0 found) <= val (walk fzero 0 js).
  Proof.
    destruct (best_columns (K - 1) 0 _ _ ltac:(lia) best_start) as (col & L & Fi & Lo & At). cbn [Nat.add] in *. destruct (At K (Nat.le_refl _)) as (A1 & A2 & A3).
    unfold found. split; [rewrite A1; lia|]. split; [exact A2|]. split; [apply last_last|]. intros js Ljs Hin E. rewrite A3. rewrite <- E. apply Lo; [lia|exact Hin].
  Qed.

  (** consecutive duplicates *)
  Fixpoint moves (R : nat -> nat -> Prop) (a : nat) (l : list nat) : Prop := match l with [] => True | j :: l' => R a j /\ moves R j l' end.
  Lemma walk_moves js : forall n acc cur (big : R), fits n acc -> (cur <= K)%nat -> inside js -> (Z.of_nat (n + length js) <= 2 ^ 50)%Z -> val (walk acc cur js) < big -> moves (fun a j => val (c a j) < big) cur js.
  Proof.
    induction js as [|j js IH]; intros n acc cur big Fa Hcur Hin Hn W; cbn [walk moves length] in *; [exact I|]. assert (Hj : (j <= K)%nat) by (apply Hin; now left).
    destruct (fadd_fits n acc (c cur j) Fa (Hc cur j Hcur Hj) ltac:(lia)) as (G1 & _ & _ & G4). assert (Hin' : inside js) by (intros k Hk; apply Hin; now right).
    destruct (walk_fits js (S n) _ j G1 Hj Hin' ltac:(lia)) as [_ W2]. split; [lra|]. apply (IH (S n) _ j big G1 Hj Hin' ltac:(lia) W).
  Qed.
  Hypothesis Hcc : forall i, (i <= K)%nat -> c i i = fzero.
  Lemma walk_val js : forall n acc acc' cur, fits n acc -> fits n acc' -> val acc = val acc' -> (cur <= K)%nat -> inside js -> (Z.of_nat (n + length js) <= 2 ^ 50)%Z -> val (walk acc cur js) = val (walk acc' cur js).
  Proof.
    induction js as [|j js IH]; intros n acc acc' cur Fa Fa' E Hcur Hin Hn; cbn [walk length] in *; [exact E|]. assert (Hj : (j <= K)%nat) by (apply Hin; now left).
    destruct (fadd_fits n acc (c cur j) Fa (Hc cur j Hcur Hj) ltac:(lia)) as (G1 & G2 & _). destruct (fadd_fits n acc' (c cur j) Fa' (Hc cur j Hcur Hj) ltac:(lia)) as (G1' & G2' & _).
    apply (IH (S n)); auto; [now rewrite G2, G2', E|intros k Hk; apply Hin; now right|lia].
  Qed.
  Lemma dedup_walk js : forall n acc cur, fits n acc -> (cur <= K)%nat -> inside js -> (Z.of_nat (n + length js) <= 2 ^ 50)%Z ->
    let d := dedup64 (Some cur) js in inside d /\ (length d <= length js)%nat /\ last d cur = last js cur /\ val (walk acc cur d) = val (walk acc cur js).
  Proof.
    induction js as [|j js IH]; intros n acc cur Fa Hcur Hin Hn; cbn [dedup64]; [repeat split; auto|]. assert (Hj : (j <= K)%nat) by (apply Hin; now left). assert (Hin' : inside js) by (intros k Hk; apply Hin; now right). cbn [length] in Hn.
    assert (LL : forall (l : list nat) a b, last (a :: l) b = last l a) by (induction l as [|x l IHl]; intros a b; [reflexivity|]; cbn [last] in *; destruct l; [reflexivity|]; rewrite (IHl a b); apply IHl || reflexivity).
    destruct (Nat.eqb_spec cur j) as [<-|N].
    - destruct (IH n acc cur Fa Hcur Hin' ltac:(lia)) as (I1 & I2 & I3 & I4). split; [exact I1|]. split; [cbn; lia|]. split; [rewrite LL; exact I3|]. rewrite I4. cbn [walk]. rewrite (Hcc cur Hcur).
      apply (walk_val js (S n)); auto; [apply (fits_le n); auto|apply fadd_fits; auto; [apply fits_0|lia]|symmetry; apply (add_zero n); auto; lia|lia].
    - destruct (fadd_fits n acc (c cur j) Fa (Hc cur j Hcur Hj) ltac:(lia)) as (G1 & _). destruct (IH (S n) (fadd acc (c cur j)) j G1 Hj Hin' ltac:(lia)) as (I1 & I2 & I3 & I4).
      split; [intros k [<-|Hk]; [exact Hj|now apply I1]|]. split; [cbn [length]; lia|]. split; [rewrite !LL; exact I3|]. cbn [walk]. exact I4.
  Qed.
  Lemma dedup_moves (P : nat -> nat -> Prop) js : forall cur, moves (fun a j => (a <= j)%nat /\ (a < j -> P a j)%nat) cur js -> moves (fun a j => (a < j)%nat /\ P a j) cur (dedup64 (Some cur) js).
  Proof.
    induction js as [|j js IH]; intros cur H; cbn [dedup64 moves] in *; [exact I|]. destruct H as [[H1 H2] H]. destruct (Nat.eqb_spec cur j) as [<-|N]; [now apply IH|]. cbn [moves]. split; [split; [lia|apply H2; lia]|now apply IH].
  Qed.
  (** stays cost nothing *)
  Lemma walk_stays n js : inside js -> (Z.of_nat (n + length js) <= 2 ^ 50)%Z -> val (walk fzero 0 (repeat 0%nat n ++ js)) = val (walk fzero 0 js).
  Proof.
    intros Hin Hn. assert (G : forall n acc, fits 0 acc -> val acc = 0 -> exists acc', fits 0 acc' /\ val acc' = 0 /\ walk acc 0 (repeat 0%nat n ++ js) = walk acc' 0 js).
    { clear n Hn. induction n as [|n IH]; intros acc Fa Va; [exists acc; auto|]. cbn [repeat app walk]. rewrite Hcc by lia. apply IH.
      - destruct (fadd_fits 0 acc fzero Fa (fits_0 1) ltac:(cbn; lia)) as ((F1 & _) & V & _). split; [exact F1|]. rewrite V, Va. change (val fzero) with 0. rewrite Rplus_0_r, rnd_0. split; [lra|]. apply Rmult_le_pos; [apply IZR_le; lia|apply bpow_ge_0].
      - rewrite (add_zero 0 acc Fa ltac:(cbn; lia)). exact Va. }
    destruct (G n fzero (fits_0 0) eq_refl) as (acc' & F' & V' & ->). apply (walk_val js 0); auto; [apply fits_0|lia|lia].
  Qed.
End Abstract.

Lemma columns_eq var xs es lo hi m d K n : forall col acc, dp_columns64 var xs es lo hi m d K n col acc = columns K (cost64 var xs es lo hi m d K) n col acc.
Proof. induction n as [|n IH]; intros col acc; [reflexivity|]. cbn [dp_columns64 columns]. cbv zeta. rewrite IH. reflexivity. Qed.
Lemma path_eq var xs es lo hi m d K : dp_path64 var xs es lo hi m d K = 0%nat :: found K (cost64 var xs es lo hi m d K).
Proof. unfold dp_path64, found. now rewrite columns_eq. Qed.
