(** Proofs about compute_local_effects, compute_jacobian_numerically, get_feature_types (C07-C09, C30). *)
From Verif Require Import Base Numpy Spec NumpyFacts Utils UtilsProofs AccProofs.
Open Scope Qc_scope.

Lemma col_in X s x : In x (col X s) -> exists r, In r X /\ nth s r 0 = x.
Proof. unfold col. intros H. apply in_map_iff in H as (r & E & Hr). eauto. Qed.

Lemma set_col_map X s (v : list Qc -> Qc) :
  set_col X s (map v (rows X)) = map (fun r => with_feature r s (store (dt X) (v r))) (rows X).
Proof. unfold set_col. rewrite combine_map_r, map_map. reflexivity. Qed.

Definition bnat (l : list Qc) (x : Qc) : nat := Z.to_nat (bidx l x).

Lemma digitize1_bnat l x : (2 <= length l)%nat -> increasing l -> covered l x ->
  digitize1 (add_last l EPS) x = S (bnat l x).
Proof. intros Hl Hi Hc. pose proof (bidx_range l x Hl Hi Hc). unfold bnat, bidx in *. lia. Qed.

Lemma bnat_in_bin l x : (2 <= length l)%nat -> increasing l -> covered l x ->
  (bnat l x < length l - 1)%nat /\ in_bin l (bnat l x) x = true.
Proof.
  intros Hl Hi Hc. pose proof (bidx_range l x Hl Hi Hc) as R. unfold bnat. split; [lia|].
  rewrite bidx_in_bin by (try assumption; lia). apply Z.eqb_eq. lia.
Qed.

Lemma bnat_unique l x k : (2 <= length l)%nat -> increasing l -> covered l x ->
  (k < length l - 1)%nat -> in_bin l k x = true -> k = bnat l x.
Proof.
  intros Hl Hi Hc Hk Hb. rewrite bidx_in_bin in Hb by assumption. apply Z.eqb_eq in Hb. unfold bnat. lia.
Qed.

Section local.
  Context (X : data) (g : list Qc -> Qc) (l : list Qc) (s : nat).
  Context (Hs : (s < dim X)%nat) (Hne : rows X <> []).
  Context (Hl : (2 <= length l)%nat) (Hi : increasing l)
          (Hc : forall r, In r (rows X) -> covered l r@s).
  Let l' := add_last l EPS.

  Lemma compute_local_effects_eq :
    compute_local_effects X (map g) l s =
    (l', Ok (map (fun r => (g (with_feature r s (store (dt X) l'@(S (bnat l r@s))))
                          - g (with_feature r s (store (dt X) l'@(bnat l r@s)))) / (l'@1 - l'@0)) (rows X))).
  Proof.
    unfold compute_local_effects, getcol.
    destruct (Nat.ltb_spec s (dim X)); [|lia]. unfold bind at 1.
    rewrite (getn_ok l 0 0) by lia. unfold bind at 1.
    assert (Hcol : col (rows X) s <> []) by (destruct (rows X); [congruence|discriminate]).
    destruct (np_min_spec _ Hcol) as (mn & -> & Hmn & _). unfold bind at 1.
    apply col_in in Hmn as (rm & Hrm & <-).
    destruct (Hc rm Hrm) as [C1 C2].
    unfold assert_ at 1. destruct (Qcleb_spec l@0 rm@s); [|qlra]. unfold bind at 1.
    rewrite (getz_last l 0) by (intros ->; simpl in Hl; lia). unfold bind at 1.
    destruct (np_max_spec _ Hcol) as (mx & -> & Hmx & _). unfold bind at 1.
    apply col_in in Hmx as (rM & HrM & <-).
    destruct (Hc rM HrM) as [C3 C4].
    unfold assert_ at 1. destruct (Qcleb_spec rM@s l@(length l - 1)); [|qlra]. unfold bind at 1.
    fold l'. f_equal.
    assert (Il' : increasing l') by (apply add_last_increasing; [apply Qclt_le_weak, EPS_pos|exact Hi]).
    assert (Ll' : length l' = length l) by apply add_last_length.
    rewrite digitize_ok by now apply increasing_weak. unfold bind at 1.
    assert (Ed : map (digitize1 l') (col (rows X) s) = map (fun r => S (bnat l r@s)) (rows X)).
    { unfold col. rewrite map_map. apply map_ext_in. intros r Hr. apply digitize1_bnat; auto. }
    rewrite Ed.
    replace (forallb _ _) with true.
    2:{ symmetry. apply forallb_forall. intros i Hin. apply in_map_iff in Hin as (r & <- & _). reflexivity. }
    unfold assert_, bind at 1.
    rewrite (take_ok l' _ 0).
    2:{ intros i Hin. apply in_map_iff in Hin as (r & <- & Hr). destruct (bnat_in_bin l _ Hl Hi (Hc r Hr)). lia. }
    unfold bind at 1. rewrite !map_map. cbn [Nat.pred].
    rewrite (take_ok l' _ 0).
    2:{ intros i Hin. apply in_map_iff in Hin as (r & <- & Hr). destruct (bnat_in_bin l _ Hl Hi (Hc r Hr)). lia. }
    unfold bind at 1. rewrite map_map.
    rewrite (getn_ok l' 0 0) by lia. unfold bind at 1. rewrite (getn_ok l' 1 0) by lia. unfold bind at 1.
    rewrite !set_col_map, !map_map. rewrite vzip_map. unfold bind at 1.
    destruct (Qceqb_spec (l'@1 - l'@0) 0) as [E|E].
    { exfalso. assert (l'@0 < l'@1) by (apply Il'; lia). qlra. }
    rewrite map_map. reflexivity.
  Qed.
End local.

(** ** numerical Jacobian *)
Definition shift_feature (r : list Qc) (j : nat) (e : Qc) : list Qc := list_updn r j (fun v => v + e).

Lemma jacobian_eq g X eps : dt X = Float64 -> eps <> 0 ->
  compute_jacobian_numerically (map g) X eps =
  Ok (map (fun r => map (fun j => (g (shift_feature r j eps) - g r) / eps) (seq 0 (dim X))) (rows X)).
Proof.
  intros Hdt He. unfold compute_jacobian_numerically. rewrite Hdt.
  rewrite (mapM_ok _ (fun j => map (fun r => (g (shift_feature r j eps) - g r) / eps) (rows X))).
  - unfold bind. f_equal. apply list_ext with (@nil Qc); rewrite !map_length, seq_length; [reflexivity|].
    intros i Hi. rewrite (nth_map_in _ _ _ 0%nat) by now rewrite seq_length.
    rewrite nth_seq by exact Hi. rewrite (nth_map_in _ (rows X) i []) by exact Hi.
    rewrite map_map. apply map_ext. intros j. simpl Nat.add.
    rewrite (nth_map_in _ (rows X) i []) by exact Hi. reflexivity.
  - intros j Hj. unfold add_col. rewrite map_map, vzip_map. unfold bind.
    destruct (Qceqb_spec eps 0); [congruence|]. unfold broadcast_to.
    rewrite !map_length, Nat.eqb_refl. rewrite map_map. reflexivity.
Qed.

Lemma jacobian_int_raises model X eps : dt X = Int64 -> (0 < dim X)%nat ->
  compute_jacobian_numerically model X eps = Raise TypeError.
Proof.
  intros Hdt Hd. unfold compute_jacobian_numerically. rewrite Hdt.
  destruct (dim X) as [|n]; [lia|]. reflexivity.
Qed.

Lemma sumq_update n (f : nat -> Qc) j (d : Qc) : (j < n)%nat ->
  sumq (map (fun i => if Nat.eqb i j then f i + d else f i) (seq 0 n)) = sumq (map f (seq 0 n)) + d.
Proof.
  revert j. induction n as [|n IH]; intros j Hj; [lia|].
  rewrite seq_S, !map_app, !sumq_app. simpl.
  destruct (Nat.eqb_spec n j) as [->|N].
  - rewrite (sumq_map_ext (fun i => if Nat.eqb i j then f i + d else f i) f); [ring|].
    intros i Hi. apply in_seq in Hi. destruct (Nat.eqb_spec i j); [lia|reflexivity].
  - rewrite IH by lia. ring.
Qed.

Lemma affine_shift b a r j e : (j < length a)%nat -> (j < length r)%nat ->
  affine b a (shift_feature r j e) = affine b a r + a@j * e.
Proof.
  intros Ha Hr. unfold affine.
  rewrite (sumq_map_ext _ (fun i => if Nat.eqb i j then a@i * r@i + a@j * e else a@i * r@i)).
  - rewrite sumq_update by exact Ha. ring.
  - intros i Hi. unfold shift_feature. rewrite list_updn_nth by exact Hr.
    destruct (Nat.eqb_spec i j) as [->|]; [ring|reflexivity].
Qed.

Lemma affine_with b a r j v : (j < length a)%nat -> (j < length r)%nat ->
  affine b a (with_feature r j v) = affine b a r + a@j * (v - r@j).
Proof.
  intros Ha Hr. unfold affine.
  rewrite (sumq_map_ext _ (fun i => if Nat.eqb i j then a@i * r@i + a@j * (v - r@j) else a@i * r@i)).
  - rewrite sumq_update by exact Ha. ring.
  - intros i Hi. unfold with_feature. rewrite list_set_nth by exact Hr.
    destruct (Nat.eqb_spec i j) as [->|]; [ring|reflexivity].
Qed.

Lemma jacobian_affine b a X eps : dt X = Float64 -> eps <> 0 -> wf_data X -> length a = dim X ->
  compute_jacobian_numerically (map (affine b a)) X eps = Ok (map (fun _ => a) (rows X)).
Proof.
  intros Hdt He Hw Ha. rewrite jacobian_eq by assumption. f_equal. apply map_ext_in. intros r Hr.
  transitivity (map (fun j => a@j) (seq 0 (length a))); [|apply map_nth_seq].
  rewrite <- Ha. apply map_ext_in. intros j Hj. apply in_seq in Hj.
  rewrite affine_shift by (try rewrite (Hw r Hr); lia). field. exact He.
Qed.

(** ** feature types *)
Lemma unique_length_distinct l ds : NoDup ds -> (forall x, In x ds <-> In x l) -> length (unique l) = length ds.
Proof.
  intros Hn H. apply Nat.le_antisymm; apply NoDup_incl_length.
  - apply increasing_NoDup, unique_increasing.
  - intros x Hx. apply H. now apply unique_in.
  - exact Hn.
  - intros x Hx. apply unique_in. now apply H.
Qed.

Lemma feature_types_spec X lim f ds : (f < dim X)%nat -> NoDup ds ->
  (forall v, In v ds <-> exists r, In r (rows X) /\ r@f = v) ->
  nth f (get_feature_types X lim) Cont = if Nat.ltb (length ds) lim then Cat else Cont.
Proof.
  intros Hf Hn H. unfold get_feature_types. rewrite (nth_map_in _ _ _ 0%nat) by now rewrite seq_length.
  rewrite nth_seq by exact Hf. simpl Nat.add. rewrite (unique_length_distinct _ ds Hn); [reflexivity|].
  intros x. rewrite H. unfold col. rewrite in_map_iff. firstorder.
Qed.

Lemma feature_types_length X lim : length (get_feature_types X lim) = dim X.
Proof. unfold get_feature_types. now rewrite map_length, seq_length. Qed.

Lemma feature_types_invariant X Y lim : dim X = dim Y -> (forall r, In r (rows X) <-> In r (rows Y)) ->
  get_feature_types X lim = get_feature_types Y lim.
Proof.
  intros Hd H. unfold get_feature_types. rewrite Hd. apply map_ext. intros f.
  rewrite (unique_ext (col (rows X) f) (col (rows Y) f)); [reflexivity|].
  intros x. unfold col. rewrite !in_map_iff. split; intros (r & E & Hr); exists r; split; auto; now apply H.
Qed.
