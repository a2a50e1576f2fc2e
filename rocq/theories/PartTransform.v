(** PartTransform: DataTransformer.transform. *)
From Verif Require Import Base Numpy Spec NumpyFacts Utils PartSpec Partition PartProofs PartSearch PartTree PartFacts PartNodes.
Open Scope Qc_scope.
Open Scope list_scope.

Lemma write_masks_ok D r ss bins pre old post : (forall s, In s ss -> (d_feature s < D)%nat) -> length old = length bins ->
  write_masks D r ss bins (length pre) (pre ++ old ++ post) = Ok (pre ++ map (fun b => d_mask ss b r) bins ++ post).
Proof.
  intros HD. assert (EX : existsb (fun s => Nat.leb D (d_feature s)) ss = false).
  { apply not_true_iff_false. rewrite existsb_exists. intros (s & Hs & E). apply Nat.leb_le in E. specialize (HD s Hs). lia. }
  revert pre old. induction bins as [|b bins IH]; intros pre [|o old] HL; simpl in HL; try lia; [reflexivity|]. injection HL as HL.
  cbn [write_masks]. rewrite EX. destruct (Nat.ltb_spec (length pre) (length (pre ++ (o :: old) ++ post))) as [_|H]; [|rewrite !app_length in H; simpl in H; lia].
  rewrite firstn_app, Nat.sub_diag, firstn_all, firstn_O, app_nil_r.
  replace (skipn (S (length pre)) (pre ++ (o :: old) ++ post)) with (old ++ post).
  2:{ rewrite skipn_app. rewrite skipn_all2 by lia. replace (S (length pre) - length pre)%nat with 1%nat by lia. reflexivity. }
  replace (pre ++ d_mask ss b r :: old ++ post) with ((pre ++ [d_mask ss b r]) ++ old ++ post) by (rewrite <- app_assoc; reflexivity).
  replace (S (length pre)) with (length (pre ++ [d_mask ss b r])) by (rewrite app_length; simpl; lia).
  rewrite IH by assumption. rewrite <- app_assoc. reflexivity.
Qed.
Lemma product01_length n : length (product01 n) = (2 ^ n)%nat.
Proof. induction n; simpl; [reflexivity|]. rewrite app_nil_r, app_length, !map_length, IHn. lia. Qed.
Lemma product01_len n b : In b (product01 n) -> length b = n.
Proof.
  revert b. induction n as [|n IH]; simpl; intros b H; [destruct H as [<-|[]]; reflexivity|]. rewrite app_nil_r in H.
  apply in_app_or in H as [H|H]; apply in_map_iff in H as (c & <- & Hc); simpl; now rewrite IH.
Qed.

(** The splits of every feature, under its own key and in order. *)
Definition in_order (sp : dsplits) (D : nat) : Prop := map fst sp = seq 0 D.
Definition splits_of (sp : dsplits) (f : nat) : list dsplit := snd (nth f sp (0%nat, [])).
Lemma in_order_length sp D : in_order sp D -> length sp = D.
Proof. intros H. rewrite <- (seq_length D 0), <- H. symmetry. apply map_length. Qed.
Lemma lookup_in_order sp D f : in_order sp D -> (f < D)%nat -> d_lookup sp f = Ok (splits_of sp f).
Proof.
  intros H Hf. pose proof (in_order_length sp D H) as L. unfold d_lookup, splits_of, in_order in *.
  assert (G : forall a sp, map fst sp = seq a (length sp) -> forall f, (a <= f < a + length sp)%nat ->
     find (fun p => Nat.eqb (fst p) f) sp = Some (nth (f - a) sp (0%nat, @nil dsplit))).
  { clear. intros a sp. revert a. induction sp as [|p sp IH]; intros a HS f Hf; simpl in *; [lia|]. injection HS as Ha HS.
    destruct (Nat.eqb_spec (fst p) f) as [E|NE].
    - replace (f - a)%nat with 0%nat by lia. reflexivity.
    - rewrite (IH (S a)) by (assumption || lia). f_equal. replace (f - a)%nat with (S (f - S a)) by lia. reflexivity. }
  rewrite (G 0%nat sp) by (rewrite ?L; assumption || lia). rewrite Nat.sub_0_r. reflexivity.
Qed.
Lemma mapping_nth sp D f : in_order sp D -> (f < D)%nat ->
  getn (map (fun e : nat * list dsplit => 2 ^ length (snd e))%nat sp) f = Ok (2 ^ length (splits_of sp f))%nat.
Proof.
  intros H Hf. pose proof (in_order_length sp D H) as L. rewrite (getn_ok _ _ 0%nat) by (rewrite map_length; lia).
  rewrite nth_map_in with (d := (0%nat, [])) by lia. reflexivity.
Qed.

(** The new columns of feature [f] for the row [r]. *)
Definition mask_block (sp : dsplits) (r : list Qc) (f : nat) : list bool :=
  map (fun b => d_mask (splits_of sp f) b r) (product01 (length (splits_of sp f))).
Definition block (sp : dsplits) (r : list Qc) (f : nat) : list Qc :=
  map (fun b : bool => r@f * (if b then 1 else 0)) (mask_block sp r f).
Lemma sumn_seq_mapping sp D f : in_order sp D -> (f <= D)%nat ->
  sumn (firstn f (map (fun e : nat * list dsplit => 2 ^ length (snd e))%nat sp)) = length (concat (map (mask_block sp []) (seq 0 f))).
Proof.
  intros H Hf. pose proof (in_order_length sp D H) as L. induction f as [|f IH]; [reflexivity|].
  rewrite seq_S, map_app, concat_app, app_length, <- IH by lia. cbn [map concat]. rewrite app_nil_r, Nat.add_0_l. unfold mask_block. rewrite map_length, product01_length.
  rewrite <- (firstn_skipn f (map (fun e : nat * list dsplit => 2 ^ length (snd e))%nat sp)) at 1.
  rewrite firstn_app, firstn_firstn. replace (Nat.min (S f) f) with f by lia. rewrite firstn_length, map_length.
  replace (S f - Nat.min f (length sp))%nat with 1%nat by lia. rewrite sumn_app. f_equal.
  rewrite (skipn_nth_cons _ _ 0%nat) by (rewrite map_length; lia). rewrite nth_map_in with (d := (0%nat, [])) by lia. simpl. unfold splits_of. lia.
Qed.
Lemma block_lengths sp r l : length (concat (map (mask_block sp r) l)) = length (concat (map (mask_block sp []) l)).
Proof.
  induction l as [|f l IH]; simpl; [reflexivity|]. rewrite !app_length, IH. f_equal. unfold mask_block. now rewrite !map_length.
Qed.
Lemma transform_row_ok sp D r : in_order sp D -> (forall f s, (f < D)%nat -> In s (splits_of sp f) -> (d_feature s < D)%nat) ->
  transform_row sp D r = Ok (concat (map (block sp r) (seq 0 D))).
Proof.
  intros HO HS. unfold transform_row.
  assert (E1 : mapM (fun f => m <- getn (map (fun e : nat * list dsplit => 2 ^ length (snd e))%nat sp) f ;; Ok (repeat r@f m)) (seq 0 D)
             = Ok (map (fun f => repeat r@f (length (mask_block sp r f))) (seq 0 D))).
  { apply mapM_Forall2. assert (G : forall l, (forall f, In f l -> (f < D)%nat) -> Forall2 (fun a b => (m <- getn (map (fun e : nat * list dsplit => 2 ^ length (snd e))%nat sp) a ;; Ok (repeat r@a m)) = Ok b) l
        (map (fun f => repeat r@f (length (mask_block sp r f))) l)).
    { induction l as [|f l IH]; intros HB; simpl; constructor; [|apply IH; intros; apply HB; now right].
      rewrite (mapping_nth sp D) by (assumption || (apply HB; now left)). unfold bind. unfold mask_block. now rewrite map_length, product01_length. }
    apply G. intros f Hf. apply in_seq in Hf. lia. }
  rewrite E1. unfold bind at 1. cbv zeta.
  assert (LN : forall l, length (concat (map (fun f => repeat r@f (length (mask_block sp r f))) l)) = length (concat (map (mask_block sp r) l))).
  { induction l as [|f l IH]; simpl; [reflexivity|]. now rewrite !app_length, IH, repeat_length. }
  rewrite LN.
  set (inv := fun f => concat (map (mask_block sp r) (seq 0 f)) ++ repeat true (length (concat (map (mask_block sp r) (seq f (D - f)))))).
  assert (E2 : foldM (fun (f : nat) (mask : list bool) => m <- getn (map (fun e : nat * list dsplit => 2 ^ length (snd e))%nat sp) f ;;
            if Nat.eqb m 1 then Ok mask else ss <- d_lookup sp f ;; write_masks D r ss (product01 (length ss)) (sumn (firstn f (map (fun e : nat * list dsplit => 2 ^ length (snd e))%nat sp))) mask)
          (seq 0 D) (inv 0%nat) = Ok (inv D)).
  { apply (foldM_seq (fun _ => ""%string) 0 _ inv D 0). intros f [_ Hf]. simpl in Hf. rewrite (mapping_nth sp D) by assumption. unfold bind at 1.
    assert (SP : repeat true (length (concat (map (mask_block sp r) (seq f (D - f))))) =
                 repeat true (length (mask_block sp r f)) ++ repeat true (length (concat (map (mask_block sp r) (seq (S f) (D - S f)))))).
    { replace (D - f)%nat with (S (D - S f)) by lia. cbn [seq map concat]. rewrite app_length. apply repeat_app. }
    assert (SS : concat (map (mask_block sp r) (seq 0 (S f))) = concat (map (mask_block sp r) (seq 0 f)) ++ mask_block sp r f).
    { rewrite seq_S, map_app, concat_app. simpl. now rewrite app_nil_r. }
    unfold inv. simpl plus. rewrite SP, SS, <- app_assoc. destruct (Nat.eqb_spec (2 ^ length (splits_of sp f)) 1) as [E|NE].
    - assert (splits_of sp f = []) as EN.
      { destruct (splits_of sp f) as [|a l]; [reflexivity|]. simpl in E. pose proof (two_pow_pos (length l)). lia. }
      unfold mask_block at 2 5. rewrite EN. reflexivity.
    - rewrite (lookup_in_order sp D) by assumption. unfold bind at 1.
      rewrite (sumn_seq_mapping sp D) by (assumption || lia). rewrite <- (block_lengths sp r). rewrite write_masks_ok.
      + reflexivity.
      + intros s Hs. apply (HS f); assumption.
      + rewrite repeat_length. unfold mask_block. apply map_length. }
  assert (I0 : inv 0%nat = repeat true (length (concat (map (mask_block sp r) (seq 0 D))))) by (unfold inv; simpl; now rewrite Nat.sub_0_r).
  rewrite <- I0, E2. unfold bind. f_equal.
  assert (ID : inv D = concat (map (mask_block sp r) (seq 0 D))) by (unfold inv; rewrite Nat.sub_diag; simpl; apply app_nil_r).
  rewrite ID. clear. generalize (seq 0 D) as l. induction l as [|f l IH]; [reflexivity|]. cbn [map concat].
  rewrite combine_app_ by apply repeat_length. rewrite map_app, IH. f_equal. unfold block.
  generalize (mask_block sp r f) as m. induction m as [|b m IHm]; [reflexivity|]. cbn [length repeat combine map]. now rewrite IHm.
Qed.

(** Exactly one leaf contains the row. *)
Definition side (s : dsplit) (r : list Qc) : bool := negb (d_side s false r).
Lemma d_side_true s r : d_side s true r = side s r.
Proof. unfold side, d_side. destruct (d_type s); [reflexivity|]. now rewrite Qcleb_negb_ltb, negb_involutive. Qed.
Lemma d_mask_unique ss b r : length b = length ss -> (d_mask ss b r = true <-> b = map (fun s => side s r) ss).
Proof.
  revert b. induction ss as [|s ss IH]; intros [|c b] HL; simpl in HL; try lia; [unfold d_mask; simpl; tauto|]. injection HL as HL.
  unfold d_mask. simpl. rewrite andb_true_iff. fold (d_mask ss b r). rewrite IH by assumption.
  assert (K : d_side s c r = true <-> c = side s r).
  { destruct c; [rewrite d_side_true; destruct (side s r); intuition congruence|]. unfold side. destruct (d_side s false r); simpl; intuition congruence. }
  rewrite K. split; [intros [-> ->]; reflexivity|]. intros E. injection E. auto.
Qed.
Lemma product01_NoDup n : NoDup (product01 n).
Proof.
  induction n as [|n IH]; simpl; [repeat constructor; simpl; tauto|]. rewrite app_nil_r. apply NoDup_app_.
  - apply FinFun.Injective_map_NoDup; [intros a b E; now injection E|assumption].
  - apply FinFun.Injective_map_NoDup; [intros a b E; now injection E|assumption].
  - intros a H1 H2. apply in_map_iff in H1 as (x & <- & _). apply in_map_iff in H2 as (y & E & _). discriminate.
Qed.
Lemma product01_complete n b : length b = n -> In b (product01 n).
Proof.
  revert b. induction n as [|n IH]; intros [|c b] H; simpl in H; try lia; [now left|]. injection H as H. simpl. rewrite app_nil_r. apply in_or_app.
  destruct c; [right|left]; apply in_map; now apply IH.
Qed.
Lemma mask_block_one sp r f : exists j, (j < 2 ^ length (splits_of sp f))%nat /\
  nth j (product01 (length (splits_of sp f))) [] = map (fun s => side s r) (splits_of sp f) /\
  mask_block sp r f = map (fun i => Nat.eqb i j) (seq 0 (2 ^ length (splits_of sp f))).
Proof.
  set (k := length (splits_of sp f)). set (b := map (fun s => side s r) (splits_of sp f)).
  assert (LB : length b = k) by (unfold b, k; apply map_length).
  destruct (In_nth _ _ [] (product01_complete k b LB)) as (j & Hj & Ej). rewrite product01_length in Hj.
  exists j. split; [assumption|]. split; [assumption|]. unfold mask_block. fold k.
  apply list_ext with false; rewrite !map_length, product01_length; [now rewrite seq_length|]. intros i Hi.
  rewrite nth_map_in with (d := []) by now rewrite product01_length. rewrite nth_map_in with (d := 0%nat) by now rewrite seq_length.
  rewrite nth_seq by assumption. simpl.
  assert (LI : length (nth i (product01 k) []) = length (splits_of sp f)) by (apply product01_len, nth_In; now rewrite product01_length).
  destruct (Nat.eqb_spec i j) as [->|NE].
  - apply d_mask_unique; [assumption|]. exact Ej.
  - apply not_true_iff_false. intros H. apply d_mask_unique in H; [|assumption]. apply NE.
    pose proof (product01_NoDup k) as ND. rewrite (NoDup_nth _ []) in ND. apply ND; rewrite ?product01_length; try assumption. now rewrite H, Ej.
Qed.

(** product01 enumerates the same leaves as the tree: 0 is the "yes" side. *)
Lemma paths_cons n : paths (S n) = map (cons true) (paths n) ++ map (cons false) (paths n).
Proof.
  induction n as [|n IH]; [reflexivity|]. rewrite paths_S. rewrite IH at 1. rewrite flat_map_app, !flat_map_map.
  rewrite (paths_S n). rewrite !map_flat_map. f_equal; apply flat_map_ext_in; intros; reflexivity.
Qed.
Lemma product01_paths n : product01 n = map (map negb) (paths n).
Proof.
  induction n as [|n IH]; [reflexivity|]. rewrite paths_cons, map_app, !map_map. cbn [product01 flat_map]. rewrite app_nil_r, IH, !map_map. reflexivity.
Qed.
