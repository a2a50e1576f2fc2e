(** FloatNan: how NaN travels through the binary64 bin computations. *)
From Coq Require Import Reals.
From Flocq Require Import Core.
From Flocq Require Import IEEE754.BinarySingleNaN.
From Verif Require Import Base Numpy NumpyFacts FloatModel.

Lemma nan_eq (x : b64) : is_nan x = true -> x = fnan. Proof. destruct x; intros H; try discriminate H. reflexivity. Qed.
Lemma fadd_nan_l x : fadd fnan x = fnan. Proof. destruct x; reflexivity. Qed.
Lemma fadd_nan_r x : fadd x fnan = fnan. Proof. destruct x; reflexivity. Qed.
Lemma fsub_nan_l x : fsub fnan x = fnan. Proof. destruct x; reflexivity. Qed.
Lemma fmul_nan_l x : fmul fnan x = fnan. Proof. destruct x; reflexivity. Qed.
Lemma fdiv_nan_l x : fdiv fnan x = fnan. Proof. destruct x; reflexivity. Qed.
Lemma fold_fadd_nan l : fold_left fadd l fnan = fnan.
Proof. induction l as [|x l IH]; [reflexivity|]. cbn [fold_left]. now rewrite fadd_nan_l. Qed.
Lemma fsum_nan l : (exists x, In x l /\ is_nan x = true) -> fsum l = fnan.
Proof.
  unfold fsum. generalize fzero. induction l as [|x l IH]; intros a (y & Hy & N); [destruct Hy|]. cbn [fold_left].
  destruct Hy as [<-|Hy]; [|apply IH; eauto]. rewrite (nan_eq x N), fadd_nan_r. apply fold_fadd_nan.
Qed.

(** [es] and [es'] differ only in groups that contain a NaN of both *)
Definition nan_alike (idx : list Z) (es es' : list b64) : Prop :=
  length es = length es' /\
  forall i, (i < length idx)%nat -> nth i es fnan = nth i es' fnan \/
    exists j, (j < length idx)%nat /\ nth j idx 0%Z = nth i idx 0%Z /\ is_nan (nth j es fnan) = true /\ is_nan (nth j es' fnan) = true.

Definition group (k : Z) (idx : list Z) (es : list b64) : list b64 := map snd (filter (fun p => Z.eqb k (fst p)) (combine idx es)).

Lemma group_in k idx es j : (j < length idx)%nat -> length idx = length es -> nth j idx 0%Z = k -> In (nth j es fnan) (group k idx es).
Proof.
  intros Hj L E. unfold group. apply in_map_iff. exists (nth j idx 0%Z, nth j es fnan). split; [reflexivity|]. apply filter_In. split.
  - rewrite <- combine_nth by exact L. apply nth_In. rewrite combine_length. lia.
  - cbn [fst]. apply Z.eqb_eq. now symmetry.
Qed.
Lemma group_ext k : forall idx es es', length idx = length es -> length es = length es' ->
  (forall i, (i < length idx)%nat -> nth i idx 0%Z = k -> nth i es fnan = nth i es' fnan) -> group k idx es = group k idx es'.
Proof.
  unfold group. induction idx as [|z idx IH]; intros es es' L L' H; [reflexivity|]. destruct es as [|e es]; [cbn in L; lia|]. destruct es' as [|e' es']; [cbn in L'; lia|].
  cbn in L, L'. cbn [combine filter fst].
  assert (I : map snd (filter (fun p => Z.eqb k (fst p)) (combine idx es)) = map snd (filter (fun p => Z.eqb k (fst p)) (combine idx es'))).
  { apply IH; try lia. intros i Hi E. apply (H (S i)); [cbn; lia|exact E]. }
  destruct (Z.eqb_spec k z) as [->|N]; [|exact I]. cbn [map snd]. rewrite I. f_equal. apply (H 0%nat); [cbn; lia|reflexivity].
Qed.

Lemma existsb_nan idx es es' k : length idx = length es -> length es = length es' ->
  {exists j, (j < length idx)%nat /\ nth j idx 0%Z = k /\ is_nan (nth j es fnan) = true /\ is_nan (nth j es' fnan) = true} +
  {~ exists j, (j < length idx)%nat /\ nth j idx 0%Z = k /\ is_nan (nth j es fnan) = true /\ is_nan (nth j es' fnan) = true}.
Proof.
  intros _ _. destruct (existsb (fun j => Z.eqb (nth j idx 0%Z) k && is_nan (nth j es fnan) && is_nan (nth j es' fnan)) (seq 0 (length idx))) eqn:E.
  - left. apply existsb_exists in E as (j & Hj & E). apply in_seq in Hj. rewrite !andb_true_iff, Z.eqb_eq in E. exists j. destruct E as [[E1 E2] E3]. split; [lia|auto].
  - right. intros (j & Hj & E1 & E2 & E3). assert (existsb (fun j => Z.eqb (nth j idx 0%Z) k && is_nan (nth j es fnan) && is_nan (nth j es' fnan)) (seq 0 (length idx)) = true); [|congruence].
    apply existsb_exists. exists j. split; [apply in_seq; lia|]. rewrite !andb_true_iff, Z.eqb_eq. auto.
Qed.

Lemma bincount_alike idx es es' n : nan_alike idx es es' -> bincount_w64 idx es n = bincount_w64 idx es' n.
Proof.
  intros [L H]. unfold bincount_w64. rewrite <- L. destruct (Nat.eqb_spec (length idx) (length es)) as [Li|]; [|reflexivity]. cbn [negb].
  destruct (existsb _ idx); [reflexivity|]. f_equal. apply map_ext. intros k.
  change (fsum (group (Z.of_nat k) idx es) = fsum (group (Z.of_nat k) idx es')).
  destruct (existsb_nan idx es es' (Z.of_nat k) Li L) as [(j & Hj & E & N & N')|NE].
  - rewrite !fsum_nan; [reflexivity| |]; eexists; (split; [eapply (group_in _ _ _ j); eauto; lia|assumption]).
  - f_equal. apply group_ext; auto. intros i Hi E. destruct (H i Hi) as [G|(j & Hj & Ej & N & N')]; [exact G|]. exfalso. apply NE. exists j. rewrite Ej, E. auto.
Qed.

Lemma nth_map_combine (h : b64 * b64 -> b64) (a b : list b64) i d : length a = length b -> (i < length a)%nat -> nth i (map h (combine a b)) d = h (nth i a fnan, nth i b fnan).
Proof.
  intros L Hi. rewrite (nth_indep _ d (h (fnan, fnan))) by (rewrite map_length, combine_length; lia). rewrite (map_nth h), combine_nth by exact L. reflexivity.
Qed.

Lemma variance_alike xs es es' l be idx : bin_indices64 xs l = Ok idx -> length idx = length es -> nan_alike idx es es' ->
  compute_bin_variance64 xs es l be = compute_bin_variance64 xs es' l be.
Proof.
  intros I Le R. unfold compute_bin_variance64. rewrite I. cbn [bind]. destruct (takez be idx) as [m|] eqn:T; [|reflexivity]. cbn [bind].
  assert (Lm : length m = length idx) by (eapply mapM_length; exact T). destruct R as [L H]. unfold vzip. rewrite <- L. destruct (Nat.eqb_spec (length es) (length m)) as [E|]; [|lia].
  cbn [bind]. rewrite (bincount_alike idx _ (map (fun p => fmul (fsub (fst p) (snd p)) (fsub (fst p) (snd p))) (combine es' m))); [reflexivity|].
  split; [rewrite !map_length, !combine_length; lia|]. intros i Hi.
  rewrite !nth_map_combine by lia. cbn [fst snd]. destruct (H i Hi) as [->|(j & Hj & Ej & N & N')]; [now left|right].
  exists j. split; [exact Hj|]. split; [exact Ej|]. rewrite !nth_map_combine by lia. cbn [fst snd]. rewrite (nan_eq _ N), (nan_eq _ N'), !fsub_nan_l, !fmul_nan_l. auto.
Qed.
