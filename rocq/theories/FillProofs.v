(** Proofs about fill_nans (C04). *)
From Verif Require Import Base Numpy Spec NumpyFacts Utils.
Open Scope Qc_scope.

Lemma valid_points_app i x1 x2 : valid_points i (x1 ++ x2) = valid_points i x1 ++ valid_points (i + length x1) x2.
Proof.
  revert i. induction x1 as [|[v|] x1 IH]; intros i; simpl.
  - f_equal. lia.
  - rewrite IH. simpl. do 3 f_equal. lia.
  - rewrite IH. do 2 f_equal. lia.
Qed.

Lemma valid_points_none i x : (forall j, (j < length x)%nat -> nth j x None = None) -> valid_points i x = [].
Proof.
  revert i. induction x as [|[v|] x IH]; intros i H; simpl; [reflexivity| |].
  - specialize (H 0%nat ltac:(simpl; lia)). discriminate.
  - apply IH. intros j Hj. apply (H (S j)). simpl. lia.
Qed.

Lemma valid_points_in i x p : In p (valid_points i x) ->
  exists j v, (j < length x)%nat /\ nth j x None = Some v /\ p = (qn (i + j), v).
Proof.
  revert i. induction x as [|[v|] x IH]; intros i H; simpl in H; [contradiction| |].
  - destruct H as [<-|H].
    + exists 0%nat, v. simpl. repeat split; [lia|]. do 2 f_equal. lia.
    + apply IH in H as (j & w & Hj & E & ->). exists (S j), w. simpl. repeat split; [lia|exact E|]. do 2 f_equal. lia.
  - apply IH in H as (j & w & Hj & E & ->). exists (S j), w. simpl. repeat split; [lia|exact E|]. do 2 f_equal. lia.
Qed.

Lemma split_nth {A} (x : list A) i d : (i < length x)%nat -> x = firstn i x ++ nth i x d :: skipn (S i) x.
Proof.
  revert i. induction x as [|a x IH]; intros i H; simpl in H; [lia|].
  destruct i as [|i]; [reflexivity|]. simpl. f_equal. apply IH. lia.
Qed.

Fixpoint xs_above (x0 : Qc) (pts : list (Qc * Qc)) : Prop :=
  match pts with [] => True | (x1, _) :: pts' => x0 < x1 /\ xs_above x1 pts' end.

Lemma xs_above_weaken a b pts : a <= b -> xs_above b pts -> xs_above a pts.
Proof. destruct pts as [|[x f] pts]; simpl; [auto|]. intros H [H1 H2]. split; [qlra|exact H2]. Qed.

Lemma valid_points_above i x (z : Qc) : z < qn i -> xs_above z (valid_points i x).
Proof.
  revert i z. induction x as [|[v|] x IH]; intros i z Hz; simpl; [exact I| |].
  - split; [exact Hz|]. apply IH. apply qn_lt. lia.
  - apply IH. assert (qn i < qn (S i)) by (apply qn_lt; lia). qlra.
Qed.

Lemma interp_from_app x0 f0 p x1 f1 q x : xs_above x0 (p ++ (x1, f1) :: q) -> x1 <= x ->
  interp_from x0 f0 (p ++ (x1, f1) :: q) x = interp_from x1 f1 q x.
Proof.
  revert x0 f0. induction p as [|[xa fa] p IH]; intros x0 f0 Hs Hx; simpl.
  - destruct (Qcltb_spec x x1); [qlra|reflexivity].
  - simpl in Hs. destruct Hs as [H1 H2].
    assert (xa < x1).
    { clear - H2. revert xa H2. induction p as [|[xb fb] p IH]; intros xa H2; simpl in H2; [tauto|].
      destruct H2 as [H2 H3]. apply IH in H3. qlra. }
    destruct (Qcltb_spec x xa); [qlra|]. apply IH; assumption.
Qed.

Lemma interp1_between p xa fa xb fb q x :
  xs_above (qn 0 - 1) (p ++ (xa, fa) :: (xb, fb) :: q) -> xa < x -> x < xb ->
  interp1 (p ++ (xa, fa) :: (xb, fb) :: q) x = Ok (fa + (fb - fa) / (xb - xa) * (x - xa)).
Proof.
  intros Hs H1 H2. destruct p as [|[x0 f0] p]; simpl.
  - destruct (Qcleb_spec x xa); [qlra|]. destruct (Qcltb_spec x xb); [reflexivity|qlra].
  - simpl in Hs. destruct Hs as [_ Hs].
    assert (x0 < xa).
    { clear - Hs. revert x0 Hs. induction p as [|[xb' fb'] p IH]; intros x0 H2; simpl in H2; [tauto|].
      destruct H2 as [H2 H3]. apply IH in H3. qlra. }
    destruct (Qcleb_spec x x0); [qlra|]. rewrite interp_from_app by (try assumption; qlra).
    simpl. destruct (Qcltb_spec x xb); [reflexivity|qlra].
Qed.

Lemma interp1_right p xa fa x :
  xs_above (qn 0 - 1) (p ++ [(xa, fa)]) -> xa < x -> interp1 (p ++ [(xa, fa)]) x = Ok fa.
Proof.
  intros Hs H1. destruct p as [|[x0 f0] p]; simpl.
  - destruct (Qcleb_spec x xa); reflexivity.
  - simpl in Hs. destruct Hs as [_ Hs].
    assert (x0 < xa).
    { clear - Hs. revert x0 Hs. induction p as [|[xb' fb'] p IH]; intros x0 H2; simpl in H2; [tauto|].
      destruct H2 as [H2 H3]. apply IH in H3. qlra. }
    destruct (Qcleb_spec x x0); [qlra|]. rewrite interp_from_app by (try assumption; qlra). reflexivity.
Qed.

Lemma valid_points_nil_iff i x : valid_points i x = [] <-> forall j, nth j x None = None.
Proof.
  split.
  - revert i. induction x as [|[v|] x IH]; intros i H j; simpl in *; [destruct j; reflexivity|discriminate|].
    destruct j as [|j]; [reflexivity|]. eapply IH, H.
  - intros H. apply valid_points_none. auto.
Qed.

Definition fill_at (pts : list (Qc * Qc)) (p : nat * NQ) : res Qc :=
  match snd p with Some v => Ok v | None => interp1 pts (qn (fst p)) end.

Lemma fill_nans_eq x : valid_points 0 x <> [] ->
  fill_nans x = mapM (fill_at (valid_points 0 x)) (combine (seq 0 (length x)) x).
Proof. intros H. unfold fill_nans. destruct (valid_points 0 x) as [|p pts] eqn:E; [congruence|]. reflexivity. Qed.

Lemma fill_nans_raise_iff x : fill_nans x = Raise ValueError <-> forall j, nth j x None = None.
Proof.
  rewrite <- (valid_points_nil_iff 0). split.
  - intros H. destruct (valid_points 0 x) as [|[x0 f0] pts] eqn:E; [reflexivity|].
    rewrite fill_nans_eq in H by congruence. rewrite E in H. exfalso. revert H.
    generalize (combine (seq 0 (length x)) x). induction l as [|[i [v|]] l IH]; simpl; [discriminate| |].
    + destruct (mapM _ l); simpl; [discriminate|exact IH].
    + unfold fill_at at 1. simpl. destruct (qn i <=? x0); simpl; destruct (mapM _ l); simpl; try discriminate; exact IH.
  - intros H. unfold fill_nans. now rewrite H.
Qed.

Lemma fill_nans_ok_or_raise x : (exists y, fill_nans x = Ok y) \/ fill_nans x = Raise ValueError.
Proof.
  destruct (valid_points 0 x) as [|[x0 f0] pts] eqn:E.
  - right. unfold fill_nans. now rewrite E.
  - left. rewrite fill_nans_eq by congruence. rewrite E.
    generalize (combine (seq 0 (length x)) x). induction l as [|[i o] l [y IH]]; simpl; [eauto|].
    rewrite IH. unfold fill_at. simpl. destruct o; simpl; [eauto|]. destruct (qn i <=? x0); simpl; eauto.
Qed.

Lemma mapM_nth {A B} (f : A -> res B) l l' i d d' : mapM f l = Ok l' -> (i < length l)%nat -> f (nth i l d) = Ok (nth i l' d').
Proof.
  revert l' i. induction l as [|a l IH]; intros l' i H Hi; simpl in *; [lia|].
  apply bind_ok in H as (b & Hb & H). apply bind_ok in H as (bs & H1 & H2). inversion H2; subst.
  destruct i as [|i]; [exact Hb|]. simpl. apply IH; [exact H1|lia].
Qed.

Lemma nth_combine_seq {A} (x : list A) i d : (i < length x)%nat -> nth i (combine (seq 0 (length x)) x) (0%nat, d) = (i, nth i x d).
Proof. intros H. rewrite combine_nth by apply seq_length. now rewrite nth_seq. Qed.

Lemma fill_nans_nth x y i : fill_nans x = Ok y -> (i < length x)%nat ->
  fill_at (valid_points 0 x) (i, nth i x None) = Ok (y@i).
Proof.
  intros H Hi.
  assert (V : valid_points 0 x <> []).
  { intros E. unfold fill_nans in H. rewrite E in H. discriminate. }
  rewrite fill_nans_eq in H by exact V.
  rewrite <- (nth_combine_seq x i None Hi). eapply mapM_nth; [exact H|]. rewrite combine_length, seq_length. lia.
Qed.

Lemma fill_nans_length x y : fill_nans x = Ok y -> length y = length x.
Proof.
  intros H.
  assert (V : valid_points 0 x <> []).
  { intros E. unfold fill_nans in H. rewrite E in H. discriminate. }
  rewrite fill_nans_eq in H by exact V. apply mapM_length in H. rewrite H, combine_length, seq_length. lia.
Qed.

Lemma fill_nans_keeps x y i v : fill_nans x = Ok y -> nth i x None = Some v -> y@i = v.
Proof.
  intros H E. assert (Hi : (i < length x)%nat).
  { destruct (Nat.lt_ge_cases i (length x)) as [L|L]; [exact L|]. rewrite nth_overflow in E by exact L. discriminate. }
  pose proof (fill_nans_nth x y i H Hi) as F. rewrite E in F. unfold fill_at in F. simpl in F. now inversion F.
Qed.

Lemma skipn_none (x : list NQ) n m b : (n <= m)%nat -> (m < length x)%nat ->
  (forall j, (n <= j < m)%nat -> nth j x None = None) ->
  valid_points b (skipn n x) = valid_points (b + (m - n)) (skipn m x).
Proof.
  intros Hnm Hm H.
  replace (skipn n x) with (firstn (m - n) (skipn n x) ++ skipn m x).
  - rewrite valid_points_app. rewrite (valid_points_none b).
    + rewrite firstn_length, skipn_length. simpl. do 2 f_equal. lia.
    + intros j Hj. rewrite firstn_length, skipn_length in Hj.
      assert (E : nth j (firstn (m - n) (skipn n x)) None = nth (n + j) x None).
      { clear - Hj Hm. rewrite <- (firstn_skipn n x) at 2. rewrite app_nth2 by (rewrite firstn_length; lia).
        rewrite firstn_length. replace (n + j - Nat.min n (length x))%nat with j by lia.
        rewrite <- (firstn_skipn (m - n) (skipn n x)) at 2. rewrite app_nth1; [reflexivity|].
        rewrite firstn_length, skipn_length. lia. }
      rewrite E. apply H. lia.
  - rewrite <- (firstn_skipn (m - n) (skipn n x)) at 2. f_equal. rewrite skipn_skipn_. f_equal. lia.
Qed.

Lemma fill_nans_gap x y i a va b vb : fill_nans x = Ok y -> nth i x None = None ->
  nearest_left x i a va -> nearest_right x i b vb -> y@i = lerp a va b vb i.
Proof.
  intros H E (Ha & Ea & Na) (Hb & Eb & Nb).
  assert (Lb : (b < length x)%nat).
  { destruct (Nat.lt_ge_cases b (length x)) as [L|L]; [exact L|]. rewrite nth_overflow in Eb by exact L. discriminate. }
  assert (Hi : (i < length x)%nat) by lia.
  pose proof (fill_nans_nth x y i H Hi) as F. rewrite E in F. unfold fill_at in F. simpl in F.
  assert (V : valid_points 0 x = valid_points 0 (firstn a x) ++ (qn a, va) :: (qn b, vb) :: valid_points (S b) (skipn (S b) x)).
  { rewrite (split_nth x a None) at 1 by lia. rewrite Ea, valid_points_app. rewrite firstn_length.
    replace (0 + Nat.min a (length x))%nat with a by lia. cbn [valid_points app]. do 2 f_equal.
    rewrite (skipn_none x (S a) b); [|lia|exact Lb|].
    - replace (S a + (b - S a))%nat with b by lia.
      rewrite (split_nth x b None) at 1 by exact Lb.
      assert (Lf : length (firstn b x) = b) by (rewrite firstn_length; lia).
      rewrite skipn_app, Lf, Nat.sub_diag.
      rewrite skipn_all2 by lia. simpl. rewrite Eb. reflexivity.
    - intros j Hj. destruct (Nat.eq_dec j i) as [->|n]; [exact E|].
      destruct (Nat.lt_ge_cases j i); [apply Na; lia|apply Nb; lia]. }
  assert (S0 : xs_above (qn 0 - 1) (valid_points 0 x)) by (apply valid_points_above; qlra).
  rewrite V in F, S0. rewrite interp1_between in F; [|exact S0|apply qn_lt; lia|apply qn_lt; lia].
  injection F as <-. unfold lerp. field.
  assert (qn a < qn b) by (apply qn_lt; lia). qlra.
Qed.

Lemma fill_nans_gap_right x y i a va : fill_nans x = Ok y -> (i < length x)%nat -> nth i x None = None ->
  nearest_left x i a va -> (forall j, (i < j)%nat -> nth j x None = None) -> y@i = va.
Proof.
  intros H Hi E (Ha & Ea & Na) Nb.
  pose proof (fill_nans_nth x y i H Hi) as F. rewrite E in F. unfold fill_at in F. simpl in F.
  assert (V : valid_points 0 x = valid_points 0 (firstn a x) ++ [(qn a, va)]).
  { rewrite (split_nth x a None) at 1 by lia. rewrite Ea, valid_points_app. rewrite firstn_length.
    replace (0 + Nat.min a (length x))%nat with a by lia. cbn [valid_points app]. do 2 f_equal.
    apply valid_points_none. intros j Hj. rewrite skipn_length in Hj.
    assert (E' : nth j (skipn (S a) x) None = nth (S a + j) x None).
    { rewrite <- (firstn_skipn (S a) x) at 2. rewrite app_nth2 by (rewrite firstn_length; lia).
      rewrite firstn_length. f_equal. lia. }
    rewrite E'. destruct (Nat.lt_trichotomy (S a + j) i) as [L|[L|L]]; [apply Na; lia|now rewrite L|apply Nb; lia]. }
  assert (S0 : xs_above (qn 0 - 1) (valid_points 0 x)) by (apply valid_points_above; qlra).
  rewrite V in F, S0. rewrite interp1_right in F; [|exact S0|apply qn_lt; lia]. now inversion F.
Qed.

Lemma fill_nans_gap_left x y i b vb : fill_nans x = Ok y -> nth i x None = None ->
  nearest_right x i b vb -> (forall j, (j < i)%nat -> nth j x None = None) -> y@i = vb.
Proof.
  intros H E (Hb & Eb & Nb) Na.
  assert (Lb : (b < length x)%nat).
  { destruct (Nat.lt_ge_cases b (length x)) as [L|L]; [exact L|]. rewrite nth_overflow in Eb by exact L. discriminate. }
  pose proof (fill_nans_nth x y i H ltac:(lia)) as F. rewrite E in F. unfold fill_at in F. simpl in F.
  assert (V : valid_points 0 x = (qn b, vb) :: valid_points (S b) (skipn (S b) x)).
  { rewrite (split_nth x b None) at 1 by lia. rewrite Eb, valid_points_app.
    rewrite valid_points_none.
    - rewrite firstn_length. replace (0 + Nat.min b (length x))%nat with b by lia. reflexivity.
    - intros j Hj. rewrite firstn_length in Hj.
      assert (E' : nth j (firstn b x) None = nth j x None).
      { rewrite <- (firstn_skipn b x) at 2. rewrite app_nth1; [reflexivity|]. rewrite firstn_length. lia. }
      rewrite E'. destruct (Nat.lt_trichotomy j i) as [L|[->|L]]; [apply Na; lia|exact E|apply Nb; lia]. }
  rewrite V in F. simpl in F. assert (qn i <= qn b) by (apply qn_le; lia).
  destruct (Qcleb_spec (qn i) (qn b)); [now inversion F|qlra].
Qed.

(** Range *)
Lemma interp_from_bounds lo hi x0 f0 pts x : xs_above x0 pts -> x0 <= x -> lo <= f0 <= hi ->
  (forall p, In p pts -> lo <= snd p <= hi) -> lo <= interp_from x0 f0 pts x <= hi.
Proof.
  revert x0 f0. induction pts as [|[x1 f1] pts IH]; intros x0 f0 Hs Hx Hf H; simpl; [exact Hf|].
  simpl in Hs. destruct Hs as [H1 H2].
  pose proof (H (x1, f1) (or_introl eq_refl)) as Hf1. simpl in Hf1.
  destruct (Qcltb_spec x x1) as [L|L].
  - set (t := (x - x0) / (x1 - x0)).
    assert (T0 : 0 <= t) by (apply Qcdiv_le_0; qlra).
    assert (T1 : t <= 1) by (apply Qcdiv_le_iff; qlra).
    replace (f0 + (f1 - f0) / (x1 - x0) * (x - x0)) with (f0 * (1 - t) + f1 * t)
      by (unfold t; field; qlra).
    destruct Hf as [Ha Hb], Hf1 as [Hc Hd]. clear - T0 T1 Ha Hb Hc Hd.
    assert (P1 : 0 <= (f0 - lo) * (1 - t)) by (apply Qcmult_le_0; qlra).
    assert (P2 : 0 <= (f1 - lo) * t) by (apply Qcmult_le_0; qlra).
    assert (P3 : 0 <= (hi - f0) * (1 - t)) by (apply Qcmult_le_0; qlra).
    assert (P4 : 0 <= (hi - f1) * t) by (apply Qcmult_le_0; qlra).
    assert (E1 : (f0 - lo) * (1 - t) + (f1 - lo) * t = f0 * (1 - t) + f1 * t - lo) by ring.
    assert (E2 : (hi - f0) * (1 - t) + (hi - f1) * t = hi - (f0 * (1 - t) + f1 * t)) by ring.
    set (A := f0 * (1 - t) + f1 * t) in *. clearbody A.
    set (B1 := (f0 - lo) * (1 - t)) in *. set (B2 := (f1 - lo) * t) in *.
    set (B3 := (hi - f0) * (1 - t)) in *. set (B4 := (hi - f1) * t) in *. clearbody B1 B2 B3 B4.
    split; qlra.
  - apply IH; [exact H2|exact L|exact Hf1|]. intros p Hp. apply H. now right.
Qed.

Lemma fill_nans_range x y lo hi : fill_nans x = Ok y ->
  (forall i v, nth i x None = Some v -> lo <= v <= hi) ->
  forall i, (i < length x)%nat -> lo <= y@i <= hi.
Proof.
  intros H Hb i Hi. pose proof (fill_nans_nth x y i H Hi) as F.
  destruct (nth i x None) as [v|] eqn:E; unfold fill_at in F; simpl in F.
  - inversion F. subst v. now apply Hb with i.
  - assert (S0 : xs_above (qn 0 - 1) (valid_points 0 x)) by (apply valid_points_above; qlra).
    assert (B : forall p, In p (valid_points 0 x) -> lo <= snd p <= hi).
    { intros p Hp. apply valid_points_in in Hp as (j & v & _ & Ev & ->). simpl. now apply Hb with j. }
    destruct (valid_points 0 x) as [|[x0 f0] pts]; [discriminate|]. simpl in F, S0.
    destruct (Qcleb_spec (qn i) x0) as [L|L]; inversion F as [F'].
    + rewrite <- F'. apply (B (x0, f0)). now left.
    + apply interp_from_bounds; [tauto|qlra|apply (B (x0, f0)); now left|].
      intros p Hp. apply B. now right.
Qed.
