(** Prop_FloatGreedy: C109, the greedy binning in binary64. *)
From Coq Require Import Reals.
From Flocq Require Import Core.
From Flocq Require Import IEEE754.BinarySingleNaN.
From Verif Require Import Base Numpy NumpyFacts FloatModel FloatFacts FloatGrid FloatBins FloatProofs FloatCat FloatAdapt Walk FloatGreedy.
From Coq Require Import Lra.
Open Scope R_scope.

(** Every bin's closed interval holds at least m instances. *)
Definition enough (xs : list b64) (m : nat) (l : list b64) : Prop :=
  forall i, (S i < length l)%nat -> (m <= count (fun x => Bleb (nth i l fnan) x && Bleb x (nth (S i) l fnan)) xs)%nat.

(** Greedy.find on a non-categorical feature, whatever the effects, the discount and the rounding of np.var: False exactly when there
    are fewer than m instances; otherwise limits that are n+1 equally spaced points with some removed (never the two ends), so they
    start at lo, end at exactly hi and increase; every bin holds at least m instances; and, for hi in [-2^27, 2^27), every instance has a bin. *)
Theorem C109_greedy var xs es lo hi m discount n cat :
  fins xs -> fin lo -> fin hi -> Rabs (val lo) <= bpow radix2 1021 -> Rabs (val hi) <= bpow radix2 1021 -> bpow radix2 (-900) <= val hi - val lo ->
  (1 <= n)%nat -> (Z.of_nat n <= 2 ^ 48)%Z -> (forall x, In x xs -> val lo <= val x <= val hi) ->
  (cat < length (unique64 xs))%nat -> (2 <= length (unique64 xs))%nat ->
  let grid := linspace64 lo hi (n + 1) in
  exists l js, greedy_find64 var xs es lo hi m discount n cat = Ok (if Nat.ltb (length xs) m then None else Some l) /\
    (* the points kept *)
    length js = length l /\ (2 <= length l <= n + 1)%nat /\ nth 0 js 0%nat = 0%nat /\ nth (length l - 1) js 0%nat = n /\
    (forall i, (S i < length l)%nat -> (nth i js 0 < nth (S i) js 0)%nat) /\
    (forall i, (i < length l)%nat -> fin (nth i l fnan) /\ val (nth i l fnan) = val (nth (nth i js 0%nat) grid fnan)) /\
    (* hence *)
    val (nth 0 l fnan) = val lo /\ nth (length l - 1) l fnan = hi /\ sorted64 l /\
    ((m <= length xs)%nat -> enough xs m l) /\
    (- bpow radix2 27 <= val hi < bpow radix2 27 ->
     forall x, In x xs -> exists k, digitize64_1 (widen64 l) x = S k /\ (S k < length l)%nat /\ val (nth k l fnan) <= val x <= val (nth (S k) l fnan)).
Proof.
  intros FX Flo Fhi Blo Bhi HD Hn Hn2 RX HC H2 grid.
  destruct (linspace64_facts lo hi n Flo Fhi Blo Bhi HD Hn Hn2) as (L & F & So & E1 & E2). fold grid in L, F, So, E1, E2.
  assert (En : nth n grid fnan = hi) by (rewrite <- E2; unfold last64; f_equal; lia). unfold first64 in E1.
  (* the kept points *)
  assert (K : exists l js, greedy_find64 var xs es lo hi m discount n cat = Ok (if Nat.ltb (length xs) m then None else Some l) /\ length js = length l /\ rising js n /\
      (forall i, (i < length l)%nat -> fin (nth i l fnan) /\ val (nth i l fnan) = val (nth (nth i js 0%nat) grid fnan)) /\ nth (length l - 1) l fnan = hi /\ ((m <= length xs)%nat -> enough xs m l)).
  { unfold greedy_find64, none_valid64. destruct (Nat.eqb_spec (length (unique64 xs)) 1); [lia|]. cbn [orb]. destruct (Nat.leb_spec (length (unique64 xs)) cat); [lia|].
    assert (R0 : rising [0%nat; n] n). { repeat split; cbn; try lia. intros [|[|i]] Hi; cbn in *; lia. }
    assert (V0 : forall i, (i < 2)%nat -> fin (nth i [lo; hi] fnan) /\ val (nth i [lo; hi] fnan) = val (nth (nth i [0%nat; n] 0%nat) grid fnan)).
    { intros [|[|i]] Hi; cbn [nth]; [auto|split; [exact Fhi|now rewrite En]|lia]. }
    assert (O0 : (m <= length xs)%nat -> enough xs m [lo; hi]).
    { intros Hm [|i] Hi; [|cbn in Hi; lia]. cbn [nth]. pose proof (bin_valid_all xs m lo hi FX Flo Fhi RX) as V. rewrite (proj2 (Nat.leb_le _ _) Hm) in V. apply Nat.leb_le in V. exact V. }
    destruct (Nat.ltb_spec (length xs) m); [exists [lo; hi], [0%nat; n]; do 2 (split; [reflexivity|]); split; [exact R0|]; split; [exact V0|]; split; [reflexivity|exact O0]|].
    destruct (only_one64 es lo hi m); [exists [lo; hi], [0%nat; n]; do 2 (split; [reflexivity|]); split; [exact R0|]; split; [exact V0|]; split; [reflexivity|exact O0]|].
    destruct (greedy_merge_spec var xs es lo hi m discount n FX Flo Fhi Blo Bhi HD Hn Hn2 RX ltac:(lia)) as (js & EQ & R & V). fold grid in EQ, V. rewrite EQ. cbn [bind].
    assert (B : forall i, (i < length js)%nat -> (nth i js 0 <= n)%nat).
    { destruct R as (R1 & R2 & R3 & R4). assert (M : forall d i, (i + d = length js - 1)%nat -> (nth i js 0 <= n)%nat); [|intros i Hi; apply (M (length js - 1 - i)%nat); lia].
      induction d as [|d IH]; intros i Hi; [replace i with (length js - 1)%nat by lia; lia|]. specialize (IH (S i) ltac:(lia)). specialize (R4 i ltac:(lia)). lia. }
    assert (N : forall i, (i < length js)%nat -> nth i (map (fun j => nth j grid fnan) js) fnan = nth (nth i js 0%nat) grid fnan).
    { intros i Hi. rewrite (nth_indep _ fnan ((fun j => nth j grid fnan) 0%nat)) by now rewrite map_length. now rewrite (map_nth (fun j => nth j grid fnan)). }
    exists (map (fun j => nth j grid fnan) js), js. rewrite map_length. split; [reflexivity|]. split; [reflexivity|]. split; [exact R|]. split; [|split].
    - intros i Hi. rewrite N by exact Hi. split; [|reflexivity]. specialize (B i Hi). apply fins_nth; auto. lia.
    - destruct R as (R1 & R2 & R3 & R4). rewrite N by lia. rewrite R3. exact En.
    - intros Hm i Hi. rewrite map_length in Hi. rewrite !N by lia. specialize (V i Hi). apply Nat.leb_le in V. exact V. }
  destruct K as (l & js & EQ & LJ & (R1 & R2 & R3 & R4) & V & Eh & En'). exists l, js. rewrite LJ in *.
  assert (RI : forall d i, (i + d < length l)%nat -> (nth i js 0 + d <= nth (i + d) js 0)%nat).
  { induction d as [|d IH]; intros i Hi; [replace (i + 0)%nat with i by lia; lia|]. specialize (IH i ltac:(lia)). specialize (R4 (i + d)%nat ltac:(lia)). replace (i + S d)%nat with (S (i + d)) by lia. lia. }
  assert (LN : (length l <= n + 1)%nat). { specialize (RI (length l - 1)%nat 0%nat ltac:(lia)). cbn [Nat.add] in RI. lia. }
  assert (So' : sorted64 l).
  { intros i Hi. destruct (V i ltac:(lia)) as [_ ->]. destruct (V (S i) Hi) as [_ ->]. specialize (R4 i Hi). apply sorted_le; auto; [lia|]. assert (nth (S i) js 0 <= n)%nat; [|lia].
    specialize (RI (length l - 1 - S i)%nat (S i) ltac:(lia)). replace (S i + (length l - 1 - S i))%nat with (length l - 1)%nat in RI by lia. lia. }
  assert (F' : fins l). { intros x Hx. destruct (In_nth _ _ fnan Hx) as (i & Hi & <-). now apply V. }
  assert (E0 : val (nth 0 l fnan) = val lo). { destruct (V 0%nat ltac:(lia)) as [_ ->]. rewrite R2. exact E1. }
  split; [exact EQ|]. split; [reflexivity|]. split; [lia|]. split; [exact R2|]. split; [exact R3|]. split; [exact R4|]. split; [exact V|].
  split; [exact E0|]. split; [exact Eh|]. split; [exact So'|]. split; [exact En'|].
  intros Hh x Hx. destruct (widen64_sorted l ltac:(lia) F' So') as (W1 & W2 & W3); [unfold last64; rewrite Eh; exact Hh|]. unfold last64 in W3. rewrite Eh, widen64_length in W3. destruct (RX x Hx) as [RX1 RX2].
  assert (Wn : forall i, (i < length l - 1)%nat -> nth i (widen64 l) fnan = nth i l fnan). { intros i Hi. rewrite widen64_nth by lia. destruct (Nat.eqb_spec i (length l - 1)); [lia|reflexivity]. }
  destruct (digitize64_inside (widen64 l) x W1 W2 (FX x Hx)) as (k & D1 & D2 & D3 & D4); [rewrite widen64_length; lia|rewrite widen64_length, Wn by lia; lra|].
  rewrite widen64_length in D2. exists k. split; [exact D1|]. split; [exact D2|]. rewrite Wn in D3 by lia. split; [exact D3|].
  destruct (Nat.eq_dec (S k) (length l - 1)) as [->|]; [rewrite Eh; exact RX2|]. rewrite Wn in D4 by lia. lra.
Qed.

Print Assumptions C109_greedy.

(** Where the bins end, exactly: Greedy walks over the positions of the computed grid; from the start a of a bin it goes to the first later position
    j < n where [closes64] holds, or else to n. Those points are the limits, except that the last but one is dropped when the last bin holds fewer than
    m instances. No hypothesis on the values: NaN, infinities and overflows included. *)
Theorem C109_rule var xs es lo hi m discount n cat :
  (1 <= n)%nat -> length es = length xs -> (cat < length (unique64 xs))%nat -> (2 <= length (unique64 xs))%nat ->
  (2 * m <= length xs)%nat -> allclose64 lo hi = false ->
  let grid := linspace64 lo hi (n + 1) in let g := fun i => nth i grid fnan in
  exists pre a, greedy_walk (closes64 var xs es grid m discount) n (pre ++ [a; n]) /\
    greedy_find64 var xs es lo hi m discount n cat = Ok (Some (map g (pre ++ (if Nat.leb m (inside64 xs (g a) (g n)) then [a; n] else [n])))).
Proof.
  intros Hn He HC H2 Hm HA grid g. destruct (greedy_merge64_rule var xs es lo hi m discount n Hn He) as (pre & a & W & E). fold grid g in W, E. exists pre, a. split; [exact W|].
  unfold greedy_find64, none_valid64. destruct (Nat.eqb_spec (length (unique64 xs)) 1); [lia|]. cbn [orb]. destruct (Nat.ltb_spec (length xs) m); [lia|]. destruct (Nat.leb_spec (length (unique64 xs)) cat); [lia|].
  unfold only_one64. rewrite HA, He. cbn [orb]. replace (Nat.ltb (length xs) (2 * m)) with false by (symmetry; apply Nat.ltb_ge; exact Hm). rewrite andb_false_r, E. reflexivity.
Qed.
(** A feature with a single value (finite, at least one instance) has no valid binning: Greedy and DP return False, whatever the cat_limit. *)
Theorem C109_single var xs es lo hi m discount n cat :
  fins xs -> xs <> [] -> (forall x y, In x xs -> In y xs -> val x = val y) ->
  greedy_find64 var xs es lo hi m discount n cat = Ok None /\ dp_find64 var xs es lo hi m discount n cat = Ok None.
Proof.
  intros F NE Q. assert (U : length (unique64 xs) = 1%nat).
  { destruct (unique64_spec xs F) as (I1 & I2 & I3). destruct (unique64 xs) as [|a [|b u]] eqn:EU; [|reflexivity|].
    - exfalso. destruct xs as [|x xs]; [congruence|]. destruct (I3 x (or_introl eq_refl)) as (y & [] & _).
    - exfalso. destruct I1 as [I1 _]. pose proof (I1 b (or_introl eq_refl)) as L. rewrite (Q a b) in L; [lra|apply I2; now left|apply I2; right; now left]. }
  unfold greedy_find64, dp_find64, none_valid64. rewrite U. cbn [Nat.eqb orb]. split; reflexivity.
Qed.

Print Assumptions C109_rule.
Print Assumptions C109_single.

(** * Concrete case *)

(** The values 0, 1, ..., 16, twice each, with effect 0 below 9 and 1 from 9 on; 100 initial bins, discount 0.3 (the float), min_points 2, cat_limit 15;
    the variance is computed by two left-to-right sums. Greedy keeps 3 of the 101 points: 0, 8.96 and 16. *)
Definition xs17 : list b64 := map (fun i => fofn i) (seq 0 17 ++ seq 0 17).
Definition es17 : list b64 := map (fun i => fofn (if Nat.ltb i 9 then 0 else 1)) (seq 0 17 ++ seq 0 17).
Definition var_seq (l : list b64) : b64 :=
  let n := fofn (length l) in let mu := fdiv (fsum l) n in fdiv (fsum (map (fun e => fmul (fsub e mu) (fsub e mu)) l)) n.
(** the float64 0.3 = 0x1.3333333333333p-2 *)
Definition f03 : b64 := @B754_finite 53 1024 false 5404319552844595 (-54) eq_refl.
Example greedy17 :
  match greedy_find64 var_seq xs17 es17 (fofn 0) (fofn 16) 2 f03 100 15 with
  | Ok (Some [a; b; c]) => Beqb a (fofn 0) && Beqb c (fofn 16) && Beqb b (nth 56 (linspace64 (fofn 0) (fofn 16) 101) fnan)
  | _ => false
  end = true.
Proof. vm_compute. reflexivity. Qed.

Example rule17 : (2 * 2 <= length xs17)%nat /\ length es17 = length xs17 /\ Nat.ltb 15 (length (unique64 xs17)) = true /\ allclose64 (fofn 0) (fofn 16) = false.
Proof. repeat split; vm_compute; try reflexivity. repeat constructor. Qed.
(** One value, ten times: False although ten instances are enough. *)
Example single10 : match greedy_find64 var_seq (repeat (fofn 3) 10) (map fofn (seq 0 10)) (fofn 3) (fofn 3) 2 f03 100 15 with Ok None => true | _ => false end = true.
Proof. vm_compute. reflexivity. Qed.
