(** Greedy.find returns a populated binning of the initial grid (C13). *)
From Verif Require Import Base Numpy Spec NumpyFacts Utils UtilsProofs Binning BinProofs.
Open Scope Qc_scope.
Open Scope list_scope.

(** A list of grid indices in reverse order (largest first), ending in 0, whose bins are all populated. *)
Inductive rbins (valid : nat -> nat -> Prop) : nat -> list nat -> Prop :=
| rb_start : rbins valid 0 []
| rb_next i j R : rbins valid j R -> (j < i)%nat -> valid j i -> rbins valid i (j :: R).

Lemma close_valid b m d n limits left i : (S i < n)%nat -> close_bin b m d n limits left i = true ->
  (m <= points_in (b_xs b) left limits@(i + 1))%nat.
Proof.
  intros Hi. unfold close_bin. destruct (Nat.eqb_spec i (n - 1)); [lia|].
  destruct (bin_valid b (Some m) left limits@(i + 1)) eqn:V; [|discriminate].
  intros _. now apply bin_valid_spec.
Qed.

Section G.
Variables (b : binner) (m n : nat) (d : Qc).
Notation pos := (grid (b_lo b) (b_hi b) n).
Notation limits := (linspace (b_lo b) (b_hi b) (n + 1)).
Definition gvalid (j i : nat) : Prop := (m <= points_in (b_xs b) (pos j) (pos i))%nat.

Lemma greedy_loop_inv todo : forall i h R, (i + todo = n)%nat -> (1 <= todo)%nat -> (h <= i)%nat -> rbins gvalid h R ->
  exists h' R', (h' < n)%nat /\ rbins gvalid h' R' /\
    greedy_loop b m d n limits todo i (map pos (h :: R)) = map pos (n :: h' :: R').
Proof.
  induction todo as [|t IH]; intros i h R Hn Ht Hh HR; [lia|].
  simpl greedy_loop. destruct t as [|t].
  - exists h, R. split; [lia|]. split; [exact HR|]. simpl.
    unfold close_bin. assert (E : Nat.eqb i (n - 1) = true) by (apply Nat.eqb_eq; lia). rewrite E.
    rewrite linspace_grid by lia. replace (i + 1)%nat with n by lia. reflexivity.
  - destruct (close_bin b m d n limits (pos h) i) eqn:C.
    + apply close_valid in C; [|lia]. rewrite linspace_grid in C |- * by lia. replace (i + 1)%nat with (S i) in * by lia.
      change (pos (S i) :: pos h :: map pos R) with (map pos (S i :: h :: R)).
      apply IH; [lia|lia|lia|]. constructor; [exact HR|lia|exact C].
    + change (pos h :: map pos R) with (map pos (h :: R)). apply IH; [lia|lia|lia|exact HR].
Qed.

(** reading a reversed index list forwards *)
Lemma rbins_sorted i R : rbins gvalid i R -> StronglySorted lt (rev (i :: R)) /\ nth 0 (rev (i :: R)) 0%nat = 0%nat.
Proof.
  induction 1 as [|i j R HR [IHs IH0] Hji Hv]; [split; [repeat constructor|reflexivity]|].
  change (rev (i :: j :: R)) with (rev (j :: R) ++ [i]). split.
  - assert (F : Forall (fun a => (a < i)%nat) (rev (j :: R))).
    { apply Forall_forall. intros a Ha.
      apply (In_nth _ _ 0%nat) in Ha as (k & Hk & <-). rewrite rev_length in Hk. simpl length in Hk.
      assert (Ej : nth (length R) (rev (j :: R)) 0%nat = j).
      { simpl. rewrite app_nth2 by (rewrite rev_length; lia). rewrite rev_length, Nat.sub_diag. reflexivity. }
      destruct (Nat.eq_dec k (length R)) as [->|]; [lia|].
      pose proof (StronglySorted_nth _ IHs k (length R) ltac:(lia) ltac:(rewrite rev_length; simpl; lia)). lia. }
    revert IHs F. generalize (rev (j :: R)). intros q Hs F. induction q as [|a q IHq]; [repeat constructor|].
    inversion_clear Hs as [|? ? H1 H2]. inversion_clear F as [|? ? F1 F2]. simpl. constructor; [now apply IHq|].
    apply Forall_app. split; [exact H2|]. repeat constructor. exact F1.
  - rewrite app_nth1; [exact IH0|]. rewrite rev_length. simpl. lia.
Qed.

Lemma rbins_binning R : rbins gvalid n R -> (1 <= n)%nat -> grid_binning (b_lo b) (b_hi b) n (rev (map pos (n :: R))).
Proof.
  intros H Hn. destruct (rbins_sorted n R H) as [Hs H0].
  destruct R as [|j R]; [inversion H; lia|].
  destruct (rev R) as [|z q] eqn:E.
  - (* R = [] : j = 0 *)
    apply (f_equal (@rev nat)) in E. rewrite rev_involutive in E. simpl in E. subst R.
    simpl in H0. subst j. exists []. split; [exact Hs|]. reflexivity.
  - assert (ER : R = rev q ++ [z]) by (rewrite <- (rev_involutive R), E; reflexivity).
    assert (Z0 : z = 0%nat).
    { rewrite ER in H0. simpl in H0. rewrite !rev_app_distr in H0. simpl in H0. exact H0. }
    exists (q ++ [j]). rewrite <- map_rev.
    assert (ES : rev (n :: j :: R) = (0 :: (q ++ [j]) ++ [n])%nat).
    { rewrite ER. simpl. rewrite rev_app_distr, rev_involutive. simpl. now rewrite Z0. }
    rewrite ES in Hs |- *. split; [exact Hs|reflexivity].
Qed.

Lemma rbins_populated i R : rbins gvalid i R -> populated (b_xs b) m (rev (map pos (i :: R))).
Proof.
  induction 1 as [|i j R HR IH Hji Hv]; intros k Hk; [simpl in Hk; lia|].
  change (rev (map pos (i :: j :: R))) with (rev (map pos (j :: R)) ++ [pos i]) in *.
  assert (L : length (rev (map pos (j :: R))) = S (length R)) by (rewrite rev_length, map_length; reflexivity).
  rewrite app_length, L in Hk. cbn [length] in Hk.
  destruct (Nat.eq_dec k (length R)) as [->|Nk].
  - rewrite (app_nth2 _ [pos i] 0 (n := S (length R))) by lia. rewrite app_nth1 by lia. rewrite L, Nat.sub_diag.
    replace (nth (length R) (rev (map pos (j :: R))) 0) with (pos j); [exact Hv|].
    simpl. rewrite app_nth2 by (rewrite rev_length, map_length; lia). rewrite rev_length, map_length, Nat.sub_diag. reflexivity.
  - rewrite !app_nth1 by lia. apply IH. lia.
Qed.

Lemma greedy_merge_ok : (1 <= n)%nat -> b_lo b < b_hi b ->
  (forall x, In x (b_xs b) -> b_lo b <= x <= b_hi b) -> (m <= length (b_xs b))%nat ->
  exists l, greedy_merge b n d m = Ok l /\ grid_binning (b_lo b) (b_hi b) n l /\ populated (b_xs b) m l.
Proof.
  intros Hn Hlh Hin Hm. unfold greedy_merge. rewrite linspace_first by lia.
  destruct (greedy_loop_inv n 0 0 [] ltac:(lia) Hn ltac:(lia) (rb_start _)) as (h & R & Hh & HR & E).
  cbn [map] in E. rewrite (grid_0 (b_lo b) (b_hi b) n) in E.
  rewrite E. simpl map. destruct (bin_valid b (Some m) (pos h) (pos n)) eqn:V.
  - eexists. split; [reflexivity|]. apply bin_valid_spec in V.
    assert (RB : rbins gvalid n (h :: R)) by (constructor; assumption).
    split; [exact (rbins_binning (h :: R) RB Hn)|exact (rbins_populated n (h :: R) RB)].
  - eexists. split; [reflexivity|].
    assert (NV : ~ (m <= points_in (b_xs b) (pos h) (pos n))%nat) by (intros Q; apply bin_valid_spec in Q; congruence).
    inversion HR as [|i j R' HR' Hji Hv E1 E2]; subst.
    + exfalso. apply NV. rewrite grid_0, grid_K by lia. now rewrite points_in_all.
    + assert (RB : rbins gvalid n (j :: R')).
      { constructor; [exact HR'|lia|]. unfold gvalid in *. etransitivity; [exact Hv|].
        apply points_in_mono; [apply Qcle_refl|]. apply grid_le; auto. lia. }
      split; [exact (rbins_binning (j :: R') RB Hn)|exact (rbins_populated n (j :: R') RB)].
Qed.
End G.

Lemma greedy_find_ok b n d m c : (1 <= n)%nat -> b_lo b < b_hi b -> length (b_eff b) = length (b_xs b) ->
  (forall x, In x (b_xs b) -> b_lo b <= x <= b_hi b) ->
  (c < length (unique (b_xs b)))%nat -> (1 < length (unique (b_xs b)))%nat -> (m <= length (b_xs b))%nat ->
  only_one_bin_possible b m = false ->
  exists l, greedy_find b n d (Some m) c = Ok (LArr l) /\ grid_binning (b_lo b) (b_hi b) n l /\ populated (b_xs b) m l.
Proof.
  intros Hn Hlh He Hin Hc Hu Hm H1. destruct (greedy_merge_ok b m n d Hn Hlh Hin Hm) as (l & E & G & P).
  exists l. split; [|auto]. unfold greedy_find, none_valid_binning. unfold bind at 1.
  destruct (Nat.eqb_spec (length (unique (b_xs b))) 1); [lia|]. destruct (Nat.ltb_spec (length (b_xs b)) m); [lia|]. simpl orb. cbv iota.
  rewrite is_categorical_none by exact Hc. unfold bind at 1. rewrite H1, E. reflexivity.
Qed.
