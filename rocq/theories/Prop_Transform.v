(** Property C80: the column names of DataTransformer.transform. *)
From Verif Require Import Base Numpy Spec NumpyFacts Utils Helpers HelpersProofs PartSpec Partition PartProofs PartSearch PartTree PartFacts PartNodes PartTransform Transformer TransformerProofs
  Prop_Partition Prop_Tree.
Open Scope Qc_scope.
Open Scope list_scope.

(** * C80  The name of a column says which rows it holds *)
(** A clause about a feature, its meaning for a row ([holds] of C43) and its text; [fmt] is ["{:.2f}".format]. *)
Definition clause : Type := nat * comparison * Qc.
Definition clause_holds (c : clause) (r : list Qc) : Prop := let '(f, cmp, p) := c in holds cmp r@f p.
Definition clause_str (fmt : Qc -> string) (c : clause) : string :=
  let '(f, cmp, p) := c in
  String.append "x" (String.append (nat_to_string f) (String.append (match cmp with CmpEq => "=" | CmpNe => "!=" | CmpLe => "<=" | CmpGt => ">" end) (fmt p))).
Definition column_text (fmt : Qc -> string) (f : nat) (cs : list clause) : string :=
  String.append "x" (String.append (nat_to_string f) (match cs with [] => ""%string | _ => String.append " | " (String.concat " & " (map (clause_str fmt) cs)) end)).
(** The clauses of copy [b] of a feature. *)
Definition clause_of (s : dsplit) (b : bool) : clause := (d_feature s, (match b, d_type s with false, Cat => CmpEq | false, Cont => CmpLe | true, Cat => CmpNe | true, Cont => CmpGt end), d_position s).
Lemma clause_side s b r : d_side s b r = true <-> clause_holds (clause_of s b) r.
Proof.
  unfold d_side, clause_holds, clause_of. destruct b, (d_type s); simpl; rewrite ?negb_true_iff, ?Qceqb_neq, ?Qcleb_le, ?Qcltb_lt; try reflexivity.
  destruct (Qceqb_spec (nth (d_feature s) r 0) (d_position s)) as [E|E]; split; auto; discriminate.
Qed.
Lemma clauses_mask ss b r : d_mask ss b r = true <-> Forall (fun c => clause_holds c r) (map (fun p => clause_of (fst p) (snd p)) (combine ss b)).
Proof.
  unfold d_mask. rewrite forallb_forall, Forall_forall. split.
  - intros H c Hc. apply in_map_iff in Hc as (p & <- & Hp). apply clause_side. now apply H.
  - intros H p Hp. apply clause_side. apply H. apply in_map_iff. now exists p.
Qed.
Lemma same_lengths {A B} (a : list (list A)) : forall b : list (list B), map (@length A) a = map (@length B) b -> length (concat a) = length (concat b).
Proof. induction a as [|x a IH]; intros [|y b] H; simpl in H; try discriminate; [reflexivity|]. injection H as H1 H2. simpl. rewrite !app_length, H1. f_equal. now apply IH. Qed.
(** A dictionary filled feature by feature ([in_order], C45): there is one name per column, column by column in the order of
    the features. The name of copy [j] of feature [f] lists one clause per split of [f], about the feature and the position of
    the split, and the copy holds the value of exactly the rows that satisfy the clauses, 0 for the others. *)
Theorem C80_names : forall fmt sp X, in_order sp (dim X) -> known_features sp (dim X) ->
  exists M names nblocks, transform_named fmt sp X = Ok (M, names) /\ names = concat nblocks /\ length nblocks = dim X /\ length M = length (rows X) /\
    (forall row, In row M -> length row = length names) /\
    forall f, (f < dim X)%nat -> let k := length (splits_of sp f) in length (nth f nblocks []) = (2 ^ k)%nat /\
      forall j, (j < 2 ^ k)%nat -> exists cs, nth j (nth f nblocks []) ""%string = column_text fmt f cs /\
        map (fun c => (fst (fst c), snd c)) cs = map (fun s => (d_feature s, d_position s)) (splits_of sp f) /\
        forall i r, nth_error (rows X) i = Some r -> exists blocks, nth_error M i = Some (concat blocks) /\ map (@length Qc) blocks = map (@length string) nblocks /\
          (Forall (fun c => clause_holds c r) cs -> (nth f blocks [])@j = r@f) /\ (~ Forall (fun c => clause_holds c r) cs -> (nth f blocks [])@j = 0).
Proof.
  intros fmt sp X HO HK.
  assert (E : transform sp X = Ok (map (fun r => concat (map (block sp r) (seq 0 (dim X)))) (rows X))).
  { unfold transform. apply mapM_Forall2. induction (rows X) as [|r l IH]; simpl; constructor; [|assumption]. now apply transform_row_ok. }
  assert (LB : forall r l, map (@length Qc) (map (block sp r) l) = map (@length string) (map (name_block fmt sp) l)).
  { intros r l. rewrite !map_map. apply map_ext. intros f. rewrite name_block_length. unfold block, mask_block. now rewrite !map_length, product01_length. }
  eexists _, _, (map (name_block fmt sp) (seq 0 (dim X))). split; [unfold transform_named; rewrite E; cbn [bind]; rewrite (new_columns_ok fmt sp (dim X) HO); reflexivity|].
  split; [reflexivity|]. split; [now rewrite map_length, seq_length|]. split; [apply map_length|]. split.
  { intros row Hrow. apply in_map_iff in Hrow as (r & <- & _). apply same_lengths, LB. }
  intros f Hf k. assert (EN : nth f (map (name_block fmt sp) (seq 0 (dim X))) [] = name_block fmt sp f) by (rewrite nth_map_in with (d := 0%nat) by (rewrite seq_length; exact Hf); rewrite nth_seq by assumption; reflexivity).
  rewrite EN. split; [apply name_block_length|]. intros j Hj. set (b := nth j (product01 k) []).
  assert (Lb : length b = k) by (apply product01_len, nth_In; now rewrite product01_length).
  exists (map (fun p => clause_of (fst p) (snd p)) (combine (splits_of sp f) b)). split; [|split].
  - unfold name_block. subst k. destruct (splits_of sp f) as [|s ss] eqn:ES.
    + simpl in Hj. replace j with 0%nat by lia. unfold column_text. simpl. now rewrite append_nil_r.
    + rewrite nth_map_in with (d := []) by now rewrite product01_length. fold b. unfold column_text. destruct b as [|c0 b0] eqn:Eb; [discriminate|]. cbn [combine map].
      do 3 f_equal. f_equal. cbn [fst snd]. f_equal; [destruct c0, (d_type s) eqn:ET; unfold clause_text, clause_str, clause_of; rewrite ET; reflexivity|].
      rewrite map_map. apply map_ext. intros [s' b']. cbn [fst snd]. unfold clause_text, clause_str, clause_of. destruct b', (d_type s'); reflexivity.
  - rewrite map_map. fold k in Lb. clearbody b. subst k. revert b Lb. clear. generalize (splits_of sp f) as ss. induction ss as [|s ss IH]; intros [|c b] L; try discriminate; [reflexivity|]. simpl. now rewrite IH by (simpl in L; lia).
  - intros i r Hr. exists (map (block sp r) (seq 0 (dim X))). split; [rewrite nth_error_map, Hr; reflexivity|]. split; [apply LB|].
    rewrite nth_map_in with (d := 0%nat) by (rewrite seq_length; exact Hf). rewrite nth_seq by assumption. simpl plus. unfold block.
    assert (EM : nth j (mask_block sp r f) false = d_mask (splits_of sp f) b r) by (unfold mask_block; rewrite nth_map_in with (d := []) by (rewrite product01_length; exact Hj); reflexivity).
    rewrite nth_map_in with (d := false) by (unfold mask_block; rewrite map_length, product01_length; exact Hj). rewrite EM. rewrite <- clauses_mask.
    destruct (d_mask (splits_of sp f) b r); split; intros H; try (exfalso; congruence); ring.
Qed.
Print Assumptions C80_names.
(** No two columns have the same name, however the positions are rounded. *)
Theorem C80_distinct : forall fmt sp X M names, in_order sp (dim X) -> known_features sp (dim X) -> transform_named fmt sp X = Ok (M, names) -> NoDup names.
Proof.
  intros fmt sp X M names HO HK H. unfold transform_named in H. apply bind_ok in H as (M' & _ & H). rewrite (new_columns_ok fmt sp (dim X) HO) in H. cbn [bind] in H. injection H as _ <-.
  apply names_NoDup, seq_NoDup.
Qed.
Print Assumptions C80_distinct.
Example C80_instance : let sp := [(0%nat, [mkD Cont 1 (qz 3); mkD Cat 2 (qz 1)]); (1%nat, []); (2%nat, [])] in
  in_order sp 3 /\ known_features sp 3 /\
  rmap (fun p => (map show (fst p), snd p)) (transform_named (fun p => if Qceqb p (qz 3) then "3.00"%string else "1.00"%string) sp (mkData Float64 3 [qs [5; 2; 1]; qs [6; 4; 0]])) =
  Ok ([[5; 0; 0; 0; 2; 1]; [0; 0; 0; 6; 4; 0]]%Q, ["x0 | x1<=3.00 & x2=1.00"; "x0 | x1<=3.00 & x2!=1.00"; "x0 | x1>3.00 & x2=1.00"; "x0 | x1>3.00 & x2!=1.00"; "x1"; "x2"]%string).
Proof.
  split; [reflexivity|]. split; [intros [|[|[|f]]] s; simpl; intuition; subst; simpl; lia|]. vm_compute. reflexivity.
Qed.
(** The names are wrong when the dictionary was filled in another order, e.g. by fit(features=[1, 0]): two names, three columns,
    and no name mentions the split. *)
Theorem C80_order_refuted : exists fmt sp X M names, Permutation (map fst sp) (seq 0 (dim X)) /\ rows X = [qs [5; 2]] /\
  transform_named fmt sp X = Ok (M, names) /\ map show M = [[5; 2; 2]]%Q /\ names = ["x0"; "x1"]%string.
Proof.
  exists (fun _ => "3.00"%string), [(1%nat, []); (0%nat, [mkD Cont 1 (qz 3)])], (mkData Float64 2 [qs [5; 2]]). eexists _, _. split; [apply perm_swap|]. split; [reflexivity|].
  split; [vm_compute; reflexivity|]. split; vm_compute; reflexivity.
Qed.
Print Assumptions C80_order_refuted.
