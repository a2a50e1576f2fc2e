(** GreedyRule: where Greedy.find closes its bins (C13). *)
From Verif Require Import Base Numpy Spec NumpyFacts Utils UtilsProofs Binning BinProofs DPProofs Walk GreedyProofs.
Open Scope Qc_scope.
Open Scope list_scope.

(** The cost of a bin: the variance of its effects, times its width, times the discount for the share of the instances it holds. *)
Definition bin_spread (xs es : list Qc) (discount a c : Qc) : Qc :=
  variance (effects_in xs es a c) * (c - a) * (1 - discount * (qn (points_in xs a c) / qn (length xs))).
(** Closing the bin that starts at position a of the grid at position j: it and its extension to position j+1 hold at least m instances, and
    extending it costs more (or the bin is empty, which takes m = 0: the cost is NaN). *)
Definition closes (xs es : list Qc) (lo hi : Qc) (n m : nat) (discount : Qc) (a j : nat) : Prop :=
  let g := grid lo hi n in
  (m <= points_in xs (g a) (g j))%nat /\ (m <= points_in xs (g a) (g (S j)))%nat /\
  (points_in xs (g a) (g j) = 0%nat \/ bin_spread xs es discount (g a) (g j) < bin_spread xs es discount (g a) (g (S j))).

Lemma bin_cost_spread b m d a e : length (b_eff b) = length (b_xs b) -> (m <= points_in (b_xs b) a e)%nat ->
  bin_cost b m d a e = if Nat.eqb (points_in (b_xs b) a e) 0 then None else Some (bin_spread (b_xs b) (b_eff b) d a e).
Proof.
  intros H Hm. unfold bin_cost, bin_spread. change (filter_effects_in_bin (b_xs b) (b_eff b) a e) with (effects_in (b_xs b) (b_eff b) a e).
  pose proof (effects_in_length (b_xs b) (b_eff b) a e H) as L. rewrite L. destruct (Nat.ltb_spec (points_in (b_xs b) a e) m) as [Lt|Ge]; [lia|].
  destruct (effects_in (b_xs b) (b_eff b) a e) as [|x q] eqn:E.
  - cbn [length] in L. rewrite <- L. reflexivity.
  - destruct (Nat.eqb_spec (points_in (b_xs b) a e) 0) as [Z|Z]; [cbn [length] in L; lia|]. unfold np_var. cbn [option_map]. f_equal. f_equal. f_equal. unfold variance, mean. rewrite map_length. reflexivity.
Qed.

Section R.
Variables (b : binner) (m n : nat) (d : Qc).
Hypotheses (Hn : (1 <= n)%nat) (Hlh : b_lo b < b_hi b) (He : length (b_eff b) = length (b_xs b)).
Notation pos := (grid (b_lo b) (b_hi b) n).
Notation limits := (linspace (b_lo b) (b_hi b) (n + 1)).
Let cl (a j : nat) : bool := close_bin b m d n limits (pos a) (j - 1).

Lemma cl_spec a j : (a < j < n)%nat -> cl a j = true <-> closes (b_xs b) (b_eff b) (b_lo b) (b_hi b) n m d a j.
Proof.
  intros Hj. unfold cl, close_bin. destruct (Nat.eqb_spec (j - 1) (n - 1)); [lia|]. cbv zeta. replace (j - 1 + 1)%nat with j by lia. replace (j - 1 + 2)%nat with (S j) by lia.
  rewrite !linspace_grid by lia. unfold closes. cbv zeta.
  destruct (bin_valid b (Some m) (pos a) (pos j)) eqn:V1; [|cbn [andb]; split; [discriminate|intros (Q & _); apply bin_valid_spec in Q; congruence]].
  destruct (bin_valid b (Some m) (pos a) (pos (S j))) eqn:V2; [|cbn [andb]; split; [discriminate|intros (_ & Q & _); apply bin_valid_spec in Q; congruence]].
  cbn [andb]. apply bin_valid_spec in V1. apply bin_valid_spec in V2. rewrite !bin_cost_spread by assumption.
  assert (MO : (points_in (b_xs b) (pos a) (pos j) <= points_in (b_xs b) (pos a) (pos (S j)))%nat).
  { apply points_in_mono; [apply Qcle_refl|]. apply grid_le; auto. }
  destruct (Nat.eqb_spec (points_in (b_xs b) (pos a) (pos j)) 0) as [Z1|Z1].
  - cbn [neqb andb nleb]. replace (nleb (if Nat.eqb (points_in (b_xs b) (pos a) (pos (S j))) 0 then None else Some (bin_spread (b_xs b) (b_eff b) d (pos a) (pos (S j)))) None) with false by (destruct (Nat.eqb _ 0); reflexivity).
    split; [intros _; auto|reflexivity].
  - destruct (Nat.eqb_spec (points_in (b_xs b) (pos a) (pos (S j))) 0) as [Z2|Z2]; [lia|]. set (c1 := bin_spread _ _ _ _ (pos j)). set (c2 := bin_spread _ _ _ _ (pos (S j))). cbn [neqb nltb nleb].
    assert (G : (if (c1 =? 0) && (0 <? c2) then true else if (c1 =? 0) && (c2 =? 0) then false else if c2 <=? c1 then false else true) = true <-> c1 < c2).
    { destruct (c1 =? 0) eqn:E1.
      - apply Qceqb_eq in E1. rewrite E1. cbn [andb]. destruct (0 <? c2) eqn:E2; [apply Qcltb_lt in E2; tauto|]. apply Qcltb_ge in E2.
        destruct (c2 =? 0) eqn:E3; [split; [discriminate|]; intros Q; exfalso; qlra|]. destruct (c2 <=? 0) eqn:E4; [split; [discriminate|]; intros Q; exfalso; qlra|]. apply Qcleb_gt in E4. tauto.
      - cbn [andb]. destruct (c2 <=? c1) eqn:E4; [apply Qcleb_le in E4; split; [discriminate|]; intros Q; exfalso; qlra|apply Qcleb_gt in E4; tauto]. }
    rewrite G. split; [auto|]. intros (_ & _ & [Q|Q]); [contradiction|exact Q].
Qed.

Lemma loop_walk todo : forall i js, (i + todo = n)%nat -> js <> [] ->
  greedy_loop b m d n limits todo i (map pos js) = map pos (walk cl n todo i js).
Proof.
  induction todo as [|t IH]; intros i js Hi Hj; [reflexivity|]. cbn [greedy_loop walk]. destruct js as [|h R]; [contradiction|]. cbn [map hd].
  assert (E : close_bin b m d n limits (pos h) i = close_at cl n h (S i)).
  { unfold close_at, cl. replace (S i - 1)%nat with i by lia. destruct (Nat.eqb_spec (S i) n) as [E|E]; [|reflexivity]. unfold close_bin. now rewrite (proj2 (Nat.eqb_eq i (n - 1))) by lia. }
  rewrite E, linspace_grid by lia. replace (i + 1)%nat with (S i) by lia. destruct (close_at cl n h (S i)).
  - change (pos (S i) :: pos h :: map pos R) with (map pos (S i :: h :: R)). apply IH; [lia|discriminate].
  - change (pos h :: map pos R) with (map pos (h :: R)). apply IH; [lia|discriminate].
Qed.

Lemma greedy_merge_rule : exists pre a, greedy_walk (closes (b_xs b) (b_eff b) (b_lo b) (b_hi b) n m d) n (pre ++ [a; n]) /\
  greedy_merge b n d m = Ok (map pos (pre ++ (if Nat.leb m (points_in (b_xs b) (pos a) (b_hi b)) then [a; n] else [n]))).
Proof.
  destruct (walk_steps cl n n 0 0 [] ltac:(lia) Hn (Nat.le_refl _) eq_refl ltac:(intros j Hj; lia)) as (R & EW & St).
  destruct R as [|a R]; [cbn in St; lia|]. exists (rev R), a. split.
  - replace (rev R ++ [a; n]) with (rev (n :: a :: R)) by (cbn [rev]; now rewrite <- app_assoc). apply (steps_walk cl); [exact cl_spec|exact St].
  - unfold greedy_merge. rewrite linspace_first by lia. pose proof (loop_walk n 0 [0%nat] ltac:(lia) ltac:(discriminate)) as E. cbn [map] in E. rewrite (grid_0 (b_lo b) (b_hi b) n) in E.
    rewrite E, EW. cbn [map].
    assert (V : bin_valid b (Some m) (pos a) (pos n) = Nat.leb m (points_in (b_xs b) (pos a) (b_hi b))).
    { rewrite grid_K by lia. apply eq_true_iff_eq. rewrite bin_valid_spec, Nat.leb_le. reflexivity. }
    rewrite V. destruct (Nat.leb _ _).
    + rewrite map_app, map_rev. cbn [rev map]. now rewrite <- app_assoc.
    + rewrite map_app, map_rev. reflexivity.
Qed.
End R.
