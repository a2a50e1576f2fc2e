(** FloatGreedy: the limits of Greedy.find in binary64. *)
From Coq Require Import Reals.
From Flocq Require Import Core.
From Flocq Require Import IEEE754.BinarySingleNaN.
From Verif Require Import Base Numpy NumpyFacts FloatModel FloatFacts FloatGrid FloatBins FloatProofs FloatAdapt Walk.
From Coq Require Import Lra.
Open Scope R_scope.

(** decreasing positions that end at 0 *)
Fixpoint falling (js : list nat) : Prop := match js with [] => False | [j] => j = 0%nat | j :: (k :: _) as js' => (k < j)%nat /\ falling js' end.
(** every bin between two consecutive positions (in falling order) has m instances *)
Fixpoint bins_ok (p : nat -> nat -> bool) (js : list nat) : Prop := match js with j :: (k :: _) as js' => p k j = true /\ bins_ok p js' | _ => True end.

Section Greedy.
  Variables (var : list b64 -> b64) (xs es : list b64) (lo hi : b64) (m : nat) (discount : b64) (n : nat) (limits : list b64).
  Let at_ (j : nat) : b64 := nth j limits fnan.
  Let ok (k j : nat) : bool := bin_valid64 xs m (at_ k) (at_ j).

  Lemma close_valid left i : (i <> n - 1)%nat -> close64 var xs es m discount n limits left i = true -> bin_valid64 xs m left (at_ (S i)) = true.
  Proof.
    intros H. unfold close64. destruct (Nat.eqb_spec i (n - 1)); [contradiction|]. fold (at_ (i + 1)). replace (i + 1)%nat with (S i) by lia.
    destruct (bin_valid64 xs m left (at_ (S i))) eqn:E; [reflexivity|]. cbn [andb]. intros C; discriminate C.
  Qed.
  Lemma close_last left : close64 var xs es m discount n limits left (n - 1) = true.
  Proof. unfold close64. now rewrite Nat.eqb_refl. Qed.

  Lemma greedy_loop_spec todo : forall i js, (i + todo = n)%nat -> (1 <= todo)%nat -> falling js -> (hd 0 js <= i)%nat -> bins_ok ok js ->
    exists js', greedy_loop64 var xs es m discount n limits todo i (map at_ js) = map at_ (n :: js') /\ falling (n :: js') /\ bins_ok ok js'.
  Proof.
    induction todo as [|t IH]; intros i js Hi Ht Fa Hh Bo; [lia|]. cbn [greedy_loop64].
    assert (HD : hd fnan (map at_ js) = at_ (hd 0%nat js)) by (destruct js as [|j js]; [destruct Fa|reflexivity]). rewrite HD.
    fold (at_ (i + 1)). replace (i + 1)%nat with (S i) by lia.
    assert (Fa' : falling (S i :: js)). { destruct js as [|j js]; [destruct Fa|]. cbn [hd] in Hh. split; [lia|exact Fa]. }
    destruct (Nat.eq_dec i (n - 1)) as [E|E].
    - assert (t = 0%nat) by lia. subst t. rewrite E, close_last. cbn [greedy_loop64]. exists js. replace (S (n - 1)) with n by lia. split; [reflexivity|]. split; [|exact Bo].
      replace (S i) with n in Fa' by lia. exact Fa'.
    - destruct (close64 var xs es m discount n limits (at_ (hd 0%nat js)) i) eqn:C.
      + change (at_ (S i) :: map at_ js) with (map at_ (S i :: js)). apply IH; try lia; auto. destruct js as [|j js]; [destruct Fa|]. split; [|exact Bo]. apply close_valid with (i := i); auto.
      + apply IH; try lia; auto.
  Qed.
End Greedy.

Lemma bin_valid_mono xs m a b a' b' : fins xs -> fin a -> fin b -> fin a' -> fin b' -> val a' <= val a -> val b <= val b' ->
  bin_valid64 xs m a b = true -> bin_valid64 xs m a' b' = true.
Proof.
  intros F Fa Fb Fa' Fb' Ha Hb. unfold bin_valid64. rewrite !Nat.leb_le. intros H. eapply Nat.le_trans; [exact H|]. clear H. unfold count.
  induction xs as [|x xs IH]; [reflexivity|]. specialize (IH (fins_tl _ _ F)). assert (Fx : fin x) by (apply F; now left). cbn [filter].
  destruct (Bleb a x && Bleb x b) eqn:E.
  - apply andb_true_iff in E as [E1 E2]. rewrite fle_val in E1, E2 by assumption. assert (E1' : Bleb a' x = true) by (apply fle_val; auto; lra). assert (E2' : Bleb x b' = true) by (apply fle_val; auto; lra).
    rewrite E1', E2'. cbn [andb length]. lia.
  - destruct (Bleb a' x && Bleb x b'); cbn [length]; lia.
Qed.
Lemma bin_valid_all xs m a b : fins xs -> fin a -> fin b -> (forall x, In x xs -> val a <= val x <= val b) -> bin_valid64 xs m a b = Nat.leb m (length xs).
Proof.
  intros F Fa Fb H. unfold bin_valid64, count. f_equal. f_equal. induction xs as [|x xs IH]; [reflexivity|]. cbn [filter].
  assert (Fx : fin x) by (apply F; now left). destruct (H x (or_introl eq_refl)) as [H1 H2].
  rewrite (proj2 (fle_val a x Fa Fx) H1), (proj2 (fle_val x b Fx Fb) H2). cbn [andb]. f_equal. apply IH; [now apply fins_tl with x|]. intros y Hy. apply H. now right.
Qed.

(** strictly increasing positions from 0 to n *)
Definition rising (js : list nat) (n : nat) : Prop := (2 <= length js)%nat /\ nth 0 js 0%nat = 0%nat /\ nth (length js - 1) js 0%nat = n /\ forall i, (S i < length js)%nat -> (nth i js 0 < nth (S i) js 0)%nat.
Lemma falling_rev js : falling js -> (2 <= length js)%nat -> rising (rev js) (hd 0%nat js).
Proof.
  intros Fa L. assert (G : forall js, falling js -> nth (length js - 1) js 0%nat = 0%nat /\ forall i, (S i < length js)%nat -> (nth (S i) js 0 < nth i js 0)%nat).
  { clear. induction js as [|j js IH]; intros Fa; [destruct Fa|]. destruct js as [|k js]; [cbn in Fa; subst; split; [reflexivity|cbn; lia]|].
    destruct Fa as [F1 F2]. destruct (IH F2) as [I1 I2]. split.
    - cbn [length] in *. replace (S (S (length js)) - 1)%nat with (S (length js)) by lia. replace (S (length js) - 1)%nat with (length js) in I1 by lia. exact I1.
    - intros [|i] Hi; [exact F1|]. apply I2. cbn [length] in *. lia. }
  destruct (G js Fa) as [G1 G2]. unfold rising. rewrite rev_length. split; [exact L|]. split; [|split].
  - rewrite rev_nth by lia. replace (length js - 1)%nat with (length js - 1)%nat by lia. exact G1.
  - rewrite rev_nth by lia. replace (length js - S (length js - 1))%nat with 0%nat by lia. destruct js; reflexivity.
  - intros i Hi. rewrite !rev_nth by lia. replace (length js - S i)%nat with (S (length js - S (S i))) by lia. apply G2. lia.
Qed.
Lemma bins_ok_nth p js : bins_ok p js -> forall i, (S i < length js)%nat -> p (nth (S i) js 0%nat) (nth i js 0%nat) = true.
Proof.
  induction js as [|j js IH]; intros B i Hi; [cbn in Hi; lia|]. destruct js as [|k js]; [cbn in Hi; lia|]. destruct B as [B1 B2]. destruct i as [|i]; [exact B1|]. apply IH; auto. cbn [length] in *. lia.
Qed.

Section Merge.
  Variables (var : list b64 -> b64) (xs es : list b64) (lo hi : b64) (m : nat) (discount : b64) (n : nat).
  Hypotheses (FX : fins xs) (Flo : fin lo) (Fhi : fin hi) (Blo : Rabs (val lo) <= bpow radix2 1021) (Bhi : Rabs (val hi) <= bpow radix2 1021)
    (HD : bpow radix2 (-900) <= val hi - val lo) (Hn : (1 <= n)%nat) (Hn2 : (Z.of_nat n <= 2 ^ 48)%Z) (RX : forall x, In x xs -> val lo <= val x <= val hi) (HM : (m <= length xs)%nat).
  Let limits := linspace64 lo hi (n + 1).
  Let at_ (j : nat) : b64 := nth j limits fnan.

  Lemma greedy_merge_spec : exists js, greedy_merge64 var xs es lo hi m discount n = Ok (map at_ js) /\ rising js n /\
    forall i, (S i < length js)%nat -> bin_valid64 xs m (at_ (nth i js 0%nat)) (at_ (nth (S i) js 0%nat)) = true.
  Proof.
    destruct (linspace64_facts lo hi n Flo Fhi Blo Bhi HD Hn Hn2) as (L & F & So & E1 & E2). fold limits in L, F, So, E1, E2.
    destruct (greedy_loop_spec var xs es m discount n limits n 0 [0%nat] ltac:(lia) Hn eq_refl (Nat.le_refl _) I) as (js & EQ & Fa & Bo). fold at_ in EQ, Bo. cbn [map] in EQ.
    unfold greedy_merge64. fold limits. fold (at_ 0). rewrite EQ.
    assert (Fat : forall j, (j <= n)%nat -> fin (at_ j)) by (intros j Hj; apply fins_nth; auto; lia).
    assert (Mat : forall i j, (i <= j)%nat -> (j <= n)%nat -> val (at_ i) <= val (at_ j)) by (intros i j Hi Hj; apply sorted_le; auto; lia).
    destruct js as [|j js]; [cbn in Fa; lia|]. cbn [map].
    assert (Out : forall js, falling (n :: js) -> js <> [] -> bins_ok (fun k j => bin_valid64 xs m (at_ k) (at_ j)) (n :: js) ->
        exists js0, Ok (map at_ (rev (n :: js))) = Ok (map at_ js0) /\ rising js0 n /\ forall i, (S i < length js0)%nat -> bin_valid64 xs m (at_ (nth i js0 0%nat)) (at_ (nth (S i) js0 0%nat)) = true).
    { intros ks Fk Nk Bk. exists (rev (n :: ks)). split; [reflexivity|]. assert (L2 : (2 <= length (n :: ks))%nat) by (destruct ks; [congruence|cbn; lia]). split; [apply (falling_rev (n :: ks)); auto|].
      intros i Hi. rewrite rev_length in Hi. rewrite !rev_nth by lia. replace (length (n :: ks) - S i)%nat with (S (length (n :: ks) - S (S i))) by lia.
      apply (bins_ok_nth (fun k j => bin_valid64 xs m (at_ k) (at_ j)) (n :: ks)); auto. lia. }
    destruct (bin_valid64 xs m (at_ j) (at_ n)) eqn:V.
    - change (at_ n :: at_ j :: map at_ js) with (map at_ (n :: j :: js)). rewrite <- map_rev. apply Out; auto; [discriminate|]. split; auto.
    - destruct js as [|k js].
      + exfalso. assert (j = 0%nat) by (destruct Fa as [_ Fa]; exact Fa). subst j. rewrite bin_valid_all in V; auto; try (apply Fat; lia).
        * apply Nat.leb_gt in V. lia.
        * intros x Hx. change (at_ 0) with (first64 limits). rewrite E1. assert (at_ n = hi) as -> by (unfold at_; rewrite <- E2; unfold last64; f_equal; lia). apply RX, Hx.
      + assert (Z : rev (map at_ (k :: js)) ++ [at_ n] = map at_ (rev (n :: k :: js))). { rewrite map_rev. reflexivity. }
        rewrite Z. destruct Fa as [F1 [F2 F3]]. destruct Bo as [B1 B2]. apply Out; [split; [lia|exact F3]|discriminate|]. split; [|exact B2].
        apply (bin_valid_mono xs m (at_ k) (at_ j)); auto; try (apply Fat; lia); [apply Rle_refl|apply Mat; lia].
  Qed.
End Merge.

(** * Where the bins end *)
(** The closed bin [a, b] has at least m instances; its effects; its cost as the code computes it. *)
Definition inside64 (xs : list b64) (a b : b64) : nat := count (fun x => Bleb a x && Bleb x b) xs.
Definition effects64 (xs es : list b64) (a b : b64) : list b64 := map snd (filter (fun p => Bleb a (fst p) && Bleb (fst p) b) (combine xs es)).
Definition spread64 (var : list b64 -> b64) (xs es : list b64) (discount a b : b64) : b64 :=
  fmul (fmul (var (effects64 xs es a b)) (fsub b a)) (fsub fone (fmul discount (fdiv (fofn (inside64 xs a b)) (fofn (length xs))))).
(** The bin that starts at position a of the grid is closed at position j: it and its extension to j+1 hold at least m instances and the cost of the
    extension is not <= its cost (so it is larger, or one of the costs is NaN). *)
Definition closes64 (var : list b64 -> b64) (xs es grid : list b64) (m : nat) (discount : b64) (a j : nat) : Prop :=
  let g := fun i => nth i grid fnan in
  (m <= inside64 xs (g a) (g j))%nat /\ (m <= inside64 xs (g a) (g (S j)))%nat /\
  Bleb (spread64 var xs es discount (g a) (g (S j))) (spread64 var xs es discount (g a) (g j)) = false.

Lemma effects64_length xs : forall es a b, length es = length xs -> length (effects64 xs es a b) = inside64 xs a b.
Proof.
  induction xs as [|x xs IH]; intros [|e es] a b H; try discriminate H; [reflexivity|]. injection H as H. unfold effects64, inside64, count in *. cbn [combine filter fst].
  destruct (Bleb a x && Bleb x b); cbn [map length]; now rewrite IH.
Qed.
Lemma Bleb_self_zero c1 c2 : Beqb c1 fzero = true -> Beqb c2 fzero = true -> Bleb c2 c1 = true.
Proof. destruct c1 as [[]|[]| |[] ? ? ?], c2 as [[]|[]| |[] ? ? ?]; cbn; intros A B; try discriminate A; try discriminate B; reflexivity. Qed.
Lemma Bltb_zero_not c1 c2 : Beqb c1 fzero = true -> Bltb fzero c2 = true -> Bleb c2 c1 = false.
Proof. destruct c1 as [[]|[]| |[] ? ? ?], c2 as [[]|[]| |[] ? ? ?]; cbn; intros A B; try discriminate A; try discriminate B; reflexivity. Qed.

Section Rule.
  Variables (var : list b64 -> b64) (xs es : list b64) (lo hi : b64) (m : nat) (discount : b64) (n : nat).
  Hypotheses (Hn : (1 <= n)%nat) (He : length es = length xs).
  Let limits := linspace64 lo hi (n + 1).
  Let at_ (j : nat) : b64 := nth j limits fnan.
  Let cl (a j : nat) : bool := close64 var xs es m discount n limits (at_ a) (j - 1).

  Lemma cl64_spec a j : (a < j < n)%nat -> cl a j = true <-> closes64 var xs es limits m discount a j.
  Proof.
    intros Hj. unfold cl, close64. destruct (Nat.eqb_spec (j - 1) (n - 1)); [lia|]. cbv zeta. replace (j - 1 + 1)%nat with j by lia. replace (j - 1 + 2)%nat with (S j) by lia.
    fold (at_ j) (at_ (S j)). unfold closes64. cbv zeta. fold (at_ a) (at_ j) (at_ (S j)). unfold bin_valid64. fold (inside64 xs (at_ a) (at_ j)) (inside64 xs (at_ a) (at_ (S j))).
    destruct (Nat.leb_spec m (inside64 xs (at_ a) (at_ j))) as [V1|V1]; [|cbn [andb]; split; [discriminate|intros (Q & _); lia]].
    destruct (Nat.leb_spec m (inside64 xs (at_ a) (at_ (S j)))) as [V2|V2]; [|cbn [andb]; split; [discriminate|intros (_ & Q & _); lia]]. cbn [andb].
    assert (C : forall k, (m <= inside64 xs (at_ a) (at_ k))%nat -> bin_cost64 var xs es m discount (at_ a) (at_ k) = spread64 var xs es discount (at_ a) (at_ k)).
    { intros k Hk. unfold bin_cost64, spread64. change (selected64 xs es (at_ a) (at_ k)) with (effects64 xs es (at_ a) (at_ k)). cbv zeta. rewrite effects64_length by exact He.
      destruct (Nat.ltb_spec (inside64 xs (at_ a) (at_ k)) m); [lia|reflexivity]. }
    rewrite !C by assumption. set (c1 := spread64 _ _ _ _ _ (at_ j)). set (c2 := spread64 _ _ _ _ _ (at_ (S j))).
    assert (G : (if Beqb c1 fzero && Bltb fzero c2 then true else if Beqb c1 fzero && Beqb c2 fzero then false else negb (Bleb c2 c1)) = true <-> Bleb c2 c1 = false).
    { destruct (Beqb c1 fzero) eqn:E1; cbn [andb]; [|now rewrite negb_true_iff]. destruct (Bltb fzero c2) eqn:E2; [rewrite (Bltb_zero_not c1 c2) by assumption; tauto|].
      destruct (Beqb c2 fzero) eqn:E3; [rewrite (Bleb_self_zero c1 c2) by assumption; split; discriminate|now rewrite negb_true_iff]. }
    rewrite G. tauto.
  Qed.

  Lemma loop64_walk todo : forall i js, (i + todo = n)%nat -> js <> [] ->
    greedy_loop64 var xs es m discount n limits todo i (map at_ js) = map at_ (walk cl n todo i js).
  Proof.
    induction todo as [|t IH]; intros i js Hi Hj; [reflexivity|]. cbn [greedy_loop64 walk]. destruct js as [|h R]; [contradiction|]. cbn [map hd].
    assert (E : close64 var xs es m discount n limits (at_ h) i = close_at cl n h (S i)).
    { unfold close_at, cl. replace (S i - 1)%nat with i by lia. destruct (Nat.eqb_spec (S i) n) as [E|E]; [|reflexivity]. unfold close64. now rewrite (proj2 (Nat.eqb_eq i (n - 1))) by lia. }
    rewrite E. replace (i + 1)%nat with (S i) by lia. fold (at_ (S i)). destruct (close_at cl n h (S i)).
    - change (at_ (S i) :: at_ h :: map at_ R) with (map at_ (S i :: h :: R)). apply IH; [lia|discriminate].
    - change (at_ h :: map at_ R) with (map at_ (h :: R)). apply IH; [lia|discriminate].
  Qed.

  Lemma greedy_merge64_rule : exists pre a, greedy_walk (closes64 var xs es limits m discount) n (pre ++ [a; n]) /\
    greedy_merge64 var xs es lo hi m discount n = Ok (map at_ (pre ++ (if Nat.leb m (inside64 xs (at_ a) (at_ n)) then [a; n] else [n]))).
  Proof.
    destruct (walk_steps cl n n 0 0 [] ltac:(lia) Hn (Nat.le_refl _) eq_refl ltac:(intros j Hj; lia)) as (R & EW & St).
    destruct R as [|a R]; [cbn in St; lia|]. exists (rev R), a. split.
    - replace (rev R ++ [a; n]) with (rev (n :: a :: R)) by (cbn [rev]; now rewrite <- app_assoc). apply (steps_walk cl); [exact cl64_spec|exact St].
    - unfold greedy_merge64. fold limits. fold (at_ 0). pose proof (loop64_walk n 0 [0%nat] ltac:(lia) ltac:(discriminate)) as E. cbn [map] in E.
      rewrite E, EW. cbn [map]. unfold bin_valid64. fold (inside64 xs (at_ a) (at_ n)). destruct (Nat.leb _ _).
      + rewrite map_app, map_rev. cbn [rev map]. now rewrite <- app_assoc.
      + rewrite map_app, map_rev. reflexivity.
  Qed.
End Rule.
