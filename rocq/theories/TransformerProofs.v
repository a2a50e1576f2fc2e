(** TransformerProofs: the column names of DataTransformer. *)
From Verif Require Import Base Numpy Spec NumpyFacts Utils Helpers HelpersProofs PartSpec Partition PartProofs PartSearch PartTree PartFacts PartNodes PartTransform Transformer.
From Coq Require Import DecimalString.
Open Scope Qc_scope.
Open Scope list_scope.
Local Notation "a +++ b" := (String.append a b) (at level 55, right associativity).

Lemma append_nil_r a : a +++ ""%string = a.
Proof. induction a; simpl; congruence. Qed.
Lemma substring_prefix a b : String.substring 0 (String.length a) (a +++ b) = a.
Proof. induction a as [|c a IH]; simpl; [now destruct b|]. now rewrite IH. Qed.
Lemma append_cancel_l a b c : a +++ b = a +++ c -> b = c.
Proof. induction a; simpl; [auto|]. intros H. injection H as H. auto. Qed.

(** ** A name as a text: the feature, then the clauses *)
Definition clause_text (fmt : Qc -> string) (s : dsplit) (b : bool) : string :=
  "x" +++ nat_to_string (d_feature s) +++ (match b, d_type s with false, Cat => "=" | false, Cont => "<=" | true, Cat => "!=" | true, Cont => ">" end) +++ fmt (d_position s).
Lemma name_part_text fmt s b : name_part fmt s b = clause_text fmt s b +++ " & ".
Proof. unfold name_part, clause_text. now rewrite !append_assoc_. Qed.
Lemma fold_names fmt l : forall n, l <> [] -> fold_left (fun n (p : dsplit * bool) => n +++ name_part fmt (fst p) (snd p)) l n =
  n +++ String.concat " & " (map (fun p => clause_text fmt (fst p) (snd p)) l) +++ " & ".
Proof.
  induction l as [|[s b] l IH]; intros n H; [congruence|]. cbn [fold_left map fst snd]. destruct l as [|q l].
  - cbn [fold_left map fst snd String.concat]. rewrite name_part_text. reflexivity.
  - rewrite IH by discriminate. cbn [String.concat map]. now rewrite name_part_text, !append_assoc_.
Qed.
Lemma column_name_text fmt f ss bin : combine ss bin <> [] ->
  column_name fmt f ss bin = "x" +++ nat_to_string f +++ " | " +++ String.concat " & " (map (fun p => clause_text fmt (fst p) (snd p)) (combine ss bin)).
Proof.
  intros H. unfold column_name. rewrite fold_names by assumption. set (a := String.concat _ _).
  replace (("x" +++ nat_to_string f +++ " | ") +++ a +++ " & ") with (("x" +++ nat_to_string f +++ " | " +++ a) +++ " & ") by now rewrite !append_assoc_.
  rewrite (append_length ("x" +++ nat_to_string f +++ " | " +++ a)).
  replace (String.length ("x" +++ nat_to_string f +++ " | " +++ a) + String.length " & " - 3)%nat with (String.length ("x" +++ nat_to_string f +++ " | " +++ a)) by (change (String.length " & ") with 3%nat; lia).
  apply substring_prefix.
Qed.

(** ** The names of feature [f] *)
Definition name_block (fmt : Qc -> string) (sp : dsplits) (f : nat) : list string :=
  match splits_of sp f with
  | [] => ["x" +++ nat_to_string f]
  | ss => map (fun b => "x" +++ nat_to_string f +++ " | " +++ String.concat " & " (map (fun p => clause_text fmt (fst p) (snd p)) (combine ss b))) (product01 (length ss))
  end.
Lemma new_columns_ok fmt sp D : in_order sp D -> new_columns fmt sp D = Ok (concat (map (name_block fmt sp) (seq 0 D))).
Proof.
  intros HO. unfold new_columns.
  assert (E : mapM (fun f => m <- getn (map (fun e : nat * list dsplit => 2 ^ length (snd e))%nat sp) f ;; if Nat.eqb m 1 then Ok ["x" +++ nat_to_string f] else ss <- d_lookup sp f ;; Ok (map (column_name fmt f ss) (product01 (length ss)))) (seq 0 D)
     = Ok (map (name_block fmt sp) (seq 0 D))).
  { apply mapM_Forall2. assert (G : forall l, (forall f, In f l -> (f < D)%nat) -> Forall2 (fun f b => (m <- getn (map (fun e : nat * list dsplit => 2 ^ length (snd e))%nat sp) f ;; if Nat.eqb m 1 then Ok ["x" +++ nat_to_string f] else ss <- d_lookup sp f ;; Ok (map (column_name fmt f ss) (product01 (length ss)))) = Ok b) l (map (name_block fmt sp) l)).
    { induction l as [|f l IH]; intros HB; simpl; constructor; [|apply IH; intros; apply HB; now right].
      assert (Hf : (f < D)%nat) by (apply HB; now left). rewrite (mapping_nth sp D) by assumption. cbn [bind]. unfold name_block. destruct (Nat.eqb_spec (2 ^ length (splits_of sp f)) 1) as [E1|N1].
      - destruct (splits_of sp f) as [|s ss]; [reflexivity|]. simpl in E1. pose proof (two_pow_pos (length ss)). lia.
      - rewrite (lookup_in_order sp D) by assumption. cbn [bind]. destruct (splits_of sp f) as [|s ss] eqn:ES; [simpl in N1; congruence|]. f_equal. apply map_ext_in. intros b Hb.
        apply column_name_text. apply product01_len in Hb. destruct b; [discriminate|]. discriminate. }
    apply G. intros f Hf. apply in_seq in Hf. lia. }
  cbv zeta. rewrite E. reflexivity.
Qed.
Lemma name_block_length fmt sp f : length (name_block fmt sp f) = (2 ^ length (splits_of sp f))%nat.
Proof. unfold name_block. destruct (splits_of sp f) as [|s ss] eqn:E; [reflexivity|]. now rewrite map_length, product01_length. Qed.

(** ** They are distinct *)
Definition SP : Ascii.ascii := Ascii.ascii_of_nat 32.
Fixpoint no_space (s : string) : Prop := match s with EmptyString => True | String c s' => c <> SP /\ no_space s' end.
Lemma digits_no_space d : no_space (NilEmpty.string_of_uint d).
Proof. induction d; simpl; auto; split; (discriminate || assumption). Qed.
Definition space_first (s : string) : Prop := match s with EmptyString => True | String c _ => c = SP end.
Lemma split_at_space a b r r' : no_space a -> no_space b -> space_first r -> space_first r' -> a +++ r = b +++ r' -> a = b /\ r = r'.
Proof.
  revert b. induction a as [|c a IH]; intros [|e b] Ha Hb Hr Hr' H; simpl in *.
  - now split.
  - exfalso. subst r. simpl in Hr. subst e. now apply Hb.
  - exfalso. subst r'. simpl in Hr'. subst c. now apply Ha.
  - injection H as -> H. destruct (IH b (proj2 Ha) (proj2 Hb) Hr Hr' H) as [-> ->]. now split.
Qed.
Lemma concat_clauses fmt : forall ss b b', length b = length ss -> length b' = length ss ->
  String.concat " & " (map (fun p => clause_text fmt (fst p) (snd p)) (combine ss b)) = String.concat " & " (map (fun p => clause_text fmt (fst p) (snd p)) (combine ss b')) -> b = b'.
Proof.
  induction ss as [|s ss IH]; intros [|c b] [|c' b'] L L' H; simpl in L, L'; try discriminate; [reflexivity|]. injection L as L. injection L' as L'.
  assert (K : exists u v, clause_text fmt s c +++ u = clause_text fmt s c' +++ v /\ (c = c' -> b = b')).
  { destruct ss as [|s2 ss].
    - destruct b, b'; try discriminate. exists ""%string, ""%string. cbn [combine map String.concat fst snd] in H. rewrite !append_nil_r. split; [exact H|reflexivity].
    - destruct b as [|d b]; [discriminate|]. destruct b' as [|d' b']; [discriminate|].
      eexists _, _. split; [exact H|]. intros ->. apply (IH (d :: b) (d' :: b')); [assumption|assumption|]. cbn [combine map fst snd] in H |- *.
      cbn [String.concat] in H. apply append_cancel_l in H. apply append_cancel_l in H. exact H. }
  destruct K as (u & v & E & K). assert (c = c') as ->; [|now rewrite K].
  destruct c, c'; try reflexivity; exfalso; unfold clause_text in E; rewrite <- !append_assoc_ in E; apply append_cancel_l in E; apply append_cancel_l in E; destruct (d_type s); simpl in E; discriminate.
Qed.
Lemma name_block_in fmt sp f n : In n (name_block fmt sp f) -> exists r, n = "x" +++ nat_to_string f +++ r /\ space_first r.
Proof.
  unfold name_block. destruct (splits_of sp f) as [|s ss].
  - intros [<-|[]]. exists ""%string. now rewrite append_nil_r.
  - intros H. apply in_map_iff in H as (b & <- & _). eexists. split; [reflexivity|]. reflexivity.
Qed.
Lemma name_block_NoDup fmt sp f : NoDup (name_block fmt sp f).
Proof.
  unfold name_block. destruct (splits_of sp f) as [|s ss] eqn:E; [repeat constructor; simpl; tauto|].
  pose proof (product01_NoDup (length (s :: ss))) as ND. pose proof (product01_len (length (s :: ss))) as LN. revert ND LN. generalize (product01 (length (s :: ss))) as l.
  induction l as [|b l IH]; intros ND LN; [constructor|]. inversion ND as [|? ? N1 N2]. subst. cbn [map]. constructor; [|apply IH; [assumption|intros; apply LN; now right]].
  intros H. apply in_map_iff in H as (b' & E2 & Hb'). apply N1. replace b with b'; [assumption|].
  apply append_cancel_l in E2. apply append_cancel_l in E2. apply append_cancel_l in E2.
  refine (concat_clauses fmt _ _ _ _ _ E2); [apply LN; now right|apply LN; now left].
Qed.
Lemma names_NoDup fmt sp l : NoDup l -> NoDup (concat (map (name_block fmt sp) l)).
Proof.
  induction l as [|f l IH]; intros ND; [constructor|]. inversion ND as [|? ? N1 N2]. subst. cbn [map concat]. apply NoDup_app_; [apply name_block_NoDup|now apply IH|].
  intros n H1 H2. apply in_concat in H2 as (bl & Hb & Hn). apply in_map_iff in Hb as (f' & <- & Hf'). apply N1. replace f with f'; [assumption|].
  apply name_block_in in H1 as (r & -> & Hr). apply name_block_in in Hn as (r' & E & Hr'). apply append_cancel_l in E.
  apply split_at_space in E as [E _]; [apply nat_to_string_inj; now symmetry|apply digits_no_space|apply digits_no_space|assumption|assumption].
Qed.
