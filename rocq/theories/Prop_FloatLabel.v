(** C128: In float64, recoding the labels of a categorical feature by any code that keeps their order relabels the splits and changes nothing else.
    Nothing is assumed of the numbers: NaN, infinities and overflow are included. *)
From Coq Require Import Reals.
From Flocq Require Import Core.
From Flocq Require Import IEEE754.BinarySingleNaN.
From Verif Require Import Base Numpy Utils FloatModel FloatMean FloatVar FloatDer FloatPDP FloatAdapt FloatRegion FloatRegionPDP FloatRegionALE FloatOpp FloatOppALE FloatOppAll FloatAsk FloatRegionPDPProofs FloatTree FloatRecode FloatLabel Prop_FloatPDP Prop_FloatGreedy Prop_FloatRegion Prop_FloatRegionPDP Prop_FloatRegionALE2 Prop_FloatRegionALE3.
Open Scope nat_scope.

(** A categorical feature k, not the feature of interest, and a code that keeps every comparison between the labels of the data (relabel: the
    label of a row is replaced by its code). *)
Definition recodes (code : b64 -> b64) (k f : nat) (g : regions64) : Prop :=
  k <> f /\ (forall t, In (k, t) (combine (g64_foc g) (g64_foc_types g)) -> t = Cat) /\ keeps_labels code (map (feat64 k) (g64_rows g)).
(** A row and the row with the label recoded, the label being one of the data. *)
Definition coded (code : b64 -> b64) (k : nat) (g : regions64) (r r' : list b64) : Prop :=
  In (nth k r fnan) (map (feat64 k) (g64_rows g)) /\ r' = recode code k r.
(** The same exception, or the same splits (feature, populations, heterogeneities, bit for bit), the position of a split on k being the code. *)
Definition same_labels (code : b64 -> b64) (k : nat) : res (list split64) -> res (list split64) -> Prop := alike (Forall2 (relabelled_split code k)).

Lemma coded_carries code k f g : k <> f -> carries f f (coded code k g).
Proof.
  intros N r r' [I ->]. assert (L : forall (l : list b64), nth f (recode code k l) fnan = nth f l fnan).
  { intros l. unfold recode. destruct (Nat.lt_ge_cases k (length l)) as [L|L]; [|now rewrite updn_out]. rewrite list_updn_nth by exact L. now rewrite (proj2 (Nat.eqb_neq f k)) by auto. }
  split; [now symmetry|]. intros v. split.
  - assert (E : nth k (list_set r f v) fnan = nth k r fnan); [|now rewrite E]. unfold list_set. destruct (Nat.lt_ge_cases f (length r)) as [Q|Q]; [|now rewrite updn_out]. rewrite list_updn_nth by exact Q. now rewrite (proj2 (Nat.eqb_neq k f)) by auto.
  - unfold recode, list_set. clear I L. revert k f N. induction r as [|a r IH]; intros [|k] [|f] N; cbn [list_updn]; try reflexivity; try congruence. now rewrite IH by congruence.
Qed.
Lemma coded_rows code k f g x x' : Forall2 (relabelled_row g code k) x x' -> Forall2 (carried f f (coded code k g)) x x'.
Proof. apply forall2_impl. intros r r' [I ->]. split; [|reflexivity]. split; [|reflexivity]. change (nth k (fst r) fnan) with (feat64 k r). now apply in_map. Qed.

(** RegionalPDP and RegionalDerPDP, the second model answering on a recoded row what the first answers on the row *)
Theorem C128_pdp code k c g m' : (forall x, g64_heter g x = pdp_heter64 c x) -> recodes code k (h64_feature c) g -> same_target (h64_feature c) (h64_feature c) (coded code k g) (h64_target c) m' ->
  same_labels code k (subregions64 g) (subregions64 (with_labels g (pdp_heter64 (pdp_moved c m' (h64_feature c))) code k)).
Proof.
  intros G (N & CAT & K) T. apply subregions_l; [exact K|exact CAT|]. intros x x' X. rewrite G. apply (pdp_heter_r c _ (coded code k g)); [now apply coded_carries|exact T|now apply coded_rows].
Qed.
(** RegionalALE *)
Theorem C128_ale code k c g model model' nof m cat : (forall x, g64_heter g x = ale_heter64 c x) -> r64_fit c = region_ale64 (r64_feature c) model nof m cat ->
  recodes code k (r64_feature c) g -> same_answers (coded code k g) model model' ->
  same_labels code k (subregions64 g) (subregions64 (with_labels g (ale_heter64 (ale_moved c (r64_feature c) (region_ale64 (r64_feature c) model' nof m cat))) code k)).
Proof.
  intros G F (N & CAT & K) A. pose proof (coded_carries code k (r64_feature c) g N) as C. apply subregions_l; [exact K|exact CAT|]. intros x x' X. apply (coded_rows code k (r64_feature c) g) in X. rewrite G.
  apply (ale_heter_r c _ (coded code k g)); [exact C|exact X|]. intros lo hi. rewrite F. unfold region_ale64. symmetry. apply (ale_rel _ _ _ C); [|exact A]. exact (carried_fst _ _ _ _ _ X).
Qed.
(** RegionalRHALE: the effects are given, the model is not asked *)
Theorem C128_rhale code k c g var b : (forall x, g64_heter g x = ale_heter64 c x) -> r64_fit c = region_rhale64 (r64_feature c) var b ->
  recodes code k (r64_feature c) g -> same_labels code k (subregions64 g) (subregions64 (with_labels g (ale_heter64 c) code k)).
Proof.
  intros G F (N & CAT & K). pose proof (coded_carries code k (r64_feature c) g N) as C. apply subregions_l; [exact K|exact CAT|]. intros x x' X. apply (coded_rows code k (r64_feature c) g) in X. rewrite G.
  assert (E : ale_heter64 c x' = ale_heter64 (ale_moved c (r64_feature c) (r64_fit c)) x') by (destruct c; reflexivity). rewrite E. apply (ale_heter_r c _ (coded code k g)); [exact C|exact X|]. intros lo hi. rewrite F. unfold region_rhale64. symmetry.
  apply (rhale_rel _ _ _ C); [exact (carried_fst _ _ _ _ _ X)|exact (carried_snd _ _ _ _ _ X)].
Qed.
Lemma filter_relabel (u : row64 -> row64) (p q : row64 -> bool) x : (forall r, In r x -> q (u r) = p r) -> filter q (map u x) = map u (filter p x).
Proof. induction x as [|r x IH]; intros H; [reflexivity|]. cbn [map filter]. rewrite H, IH by auto with datatypes. now destruct (p r). Qed.
(** The instances of the subregions are the same ones: a candidate split of a relabelled part at the code of a label of the data gives the
    relabelled parts. *)
Theorem C128_parts code k f g xs p : recodes code k f g -> In p (map (feat64 k) (g64_rows g)) -> (forall x r, In x xs -> In r x -> In r (g64_rows g)) ->
  split_all64 (map (map (relabel code k)) xs) k (code p) Cat = map (map (relabel code k)) (split_all64 xs k p Cat).
Proof.
  intros (_ & _ & K) Ip I. unfold split_all64, split_dataset64. induction xs as [|x xs IH]; [reflexivity|]. cbn [map flat_map app]. rewrite IH by (intros y r Hy; apply I; now right). 
  assert (E : forall r, In r x -> feat64 k (relabel code k r) = code (feat64 k r)) by (intros r Hr; rewrite (col_r g code k K k r) by (split; [eapply I; [now left|exact Hr]|reflexivity]); unfold cd; now rewrite Nat.eqb_refl).
  assert (B : forall r, In r x -> Beqb (code (feat64 k r)) (code p) = Beqb (feat64 k r) p) by (intros r Hr; apply K; [apply in_map; eapply I; [now left|exact Hr]|exact Ip]).
  f_equal; [|f_equal]; apply filter_relabel; intros r Hr; cbn [goes_left64 goes_right64]; now rewrite E, B.
Qed.

(** ** hypotheses met: labels 0 and 1 recoded as 5 and 100 *)
Definition code_5_100 (v : b64) : b64 := fadd (fmul (fofn 95) v) (fofn 5).
Definition labels_kept (code : b64 -> b64) (l : list b64) : bool :=
  forallb (fun a => forallb (fun b => Bool.eqb (Bltb (code a) (code b)) (Bltb a b) && Bool.eqb (Beqb (code a) (code b)) (Beqb a b)) l) l.
Lemma labels_check code l : labels_kept code l = true -> keeps_labels code l.
Proof.
  intros A a b Ha Hb. unfold labels_kept in A. rewrite forallb_forall in A. specialize (A a Ha). rewrite forallb_forall in A. specialize (A b Hb). apply andb_true_iff in A as [A B]. split; now apply eqb_prop.
Qed.
Definition kind_model (t : b64) (r : list b64) : b64 := if xorb (Bltb (nth 0 r fnan) (fofn 2)) (Bltb (nth 1 r fnan) t) then fofn 2 else fzero.
Definition kind_rows : list row64 := map (fun i => ([fofn (i mod 4); fofn (i / 4)], [])) (seq 0 8).
Definition kind_heter (t : b64) : pdpheter64 := mk_pdpheter64 (Outputs (kind_model t)) 0 (fofn 0) (fofn 3) 2 one_by_one one_by_one.
Definition kind (t : b64) : regions64 := mkRegions64 (pdp_heter64 (kind_heter t)) sum_left kind_rows Cont [1]%nat [Cat] 10 2 3 1 thres8 small8 false.
Example kind_recodes : recodes code_5_100 1 0 (kind (fofn 1)).
Proof. split; [discriminate|]. split; [intros t [E|[]]; congruence|]. apply labels_check. vm_compute. reflexivity. Qed.
Example kind_models : same_target 0 0 (coded code_5_100 1 (kind (fofn 1))) (Outputs (kind_model (fofn 1))) (Outputs (kind_model (fofn 100))).
Proof.
  intros r r' [I ->]. destruct r as [|a [|b r]]; cbn [nth] in I; unfold kind_model, recode; cbn [list_updn nth]; try reflexivity.
  assert (A : forallb (fun v => Bool.eqb (Bltb (code_5_100 v) (fofn 100)) (Bltb v (fofn 1))) (map (feat64 1) (g64_rows (kind (fofn 1)))) = true) by (vm_compute; reflexivity).
  rewrite forallb_forall in A. specialize (A b I). apply eqb_prop in A. now rewrite A.
Qed.
(** one split, at label 0; after recoding, at label 5, with the same populations *)
Definition where_to (r : res (list split64)) (p : b64) : list (nat * bool * list nat) := match r with Ok l => map (fun s => (s64_feature s, Beqb (s64_pos s) p, s64_nof s)) l | Raise _ => [] end.
Example kind_trees : where_to (subregions64 (kind (fofn 1))) (fofn 0) = [(1, true, [4; 4])] /\
  where_to (subregions64 (with_labels (kind (fofn 1)) (pdp_heter64 (kind_heter (fofn 100))) code_5_100 1)) (fofn 5) = [(1, true, [4; 4])].
Proof. split; vm_compute; reflexivity. Qed.
Definition prod_5_100 (r : list b64) : b64 := fmul (fmul (fofn 3) (nth 0 r fnan)) (if Bltb (nth 1 r fnan) (fofn 100) then fzero else fofn 1).
Definition prod_0_1 (r : list b64) : b64 := fmul (fmul (fofn 3) (nth 0 r fnan)) (if Bltb (nth 1 r fnan) (fofn 1) then fzero else fofn 1).
Definition prod_cat_heter : aleheter64 := mk_aleheter64 0 4 (region_ale64 0 (map prod_0_1) 4 0 2) NoCentering one_by_one.
Definition prod_cat : regions64 := mkRegions64 (ale_heter64 prod_cat_heter) sum_left prod_rows Cont [1]%nat [Cat] 10 2 3 1 thres8 small8 false.
Example prod_recodes : recodes code_5_100 1 0 prod_cat /\ recodes code_5_100 1 0 mix /\ same_answers (coded code_5_100 1 prod_cat) (map prod_0_1) (map prod_5_100).
Proof.
  split; [|split].
  - split; [discriminate|]. split; [intros t [E|[]]; congruence|]. apply labels_check. vm_compute. reflexivity.
  - split; [discriminate|]. split; [intros t [E|[]]; congruence|]. apply labels_check. vm_compute. reflexivity.
  - intros Y Y' H. apply eq2. eapply map2; [|exact H]. intros r r' [I ->]. destruct r as [|a [|b r]]; cbn [nth] in I; unfold prod_0_1, prod_5_100, recode; cbn [list_updn nth]; try reflexivity.
    assert (A : forallb (fun v => Bool.eqb (Bltb (code_5_100 v) (fofn 100)) (Bltb v (fofn 1))) (map (feat64 1) (g64_rows prod_cat)) = true) by (vm_compute; reflexivity).
    rewrite forallb_forall in A. specialize (A b I). apply eqb_prop in A. now rewrite A.
Qed.
Example prod_trees : where_to (subregions64 prod_cat) (fofn 0) = [(1, true, [16; 16])] /\
  where_to (subregions64 (with_labels prod_cat (ale_heter64 (ale_moved prod_cat_heter 0 (region_ale64 0 (map prod_5_100) 4 0 2))) code_5_100 1)) (fofn 5) = [(1, true, [16; 16])] /\
  where_to (subregions64 mix) (fofn 0) = [(1, true, [16; 16])] /\ where_to (subregions64 (with_labels mix (ale_heter64 mix_heter) code_5_100 1)) (fofn 5) = [(1, true, [16; 16])].
Proof. repeat split; vm_compute; reflexivity. Qed.

(** A code that is one-to-one but exchanges the labels does change the search: of two equally good splits the one at the smaller label is
    returned, so the split of the recoded data is not the recoded split. *)
Definition swap01 (v : b64) : b64 := fsub (fofn 1) v.
Theorem C128_order_matters : (forall a b, In a (map (feat64 1) mix_rows) -> In b (map (feat64 1) mix_rows) -> Beqb (swap01 a) (swap01 b) = Beqb a b) /\
  ~ same_labels swap01 1 (subregions64 mix) (subregions64 (with_labels mix (ale_heter64 mix_heter) swap01 1)).
Proof.
  split.
  - intros a b Ha Hb. assert (A : forallb (fun a => forallb (fun b => Bool.eqb (Beqb (swap01 a) (swap01 b)) (Beqb a b)) (map (feat64 1) mix_rows)) (map (feat64 1) mix_rows) = true) by (vm_compute; reflexivity).
    rewrite forallb_forall in A. specialize (A a Ha). rewrite forallb_forall in A. specialize (A b Hb). now apply eqb_prop.
  - assert (Q : match subregions64 mix, subregions64 (with_labels mix (ale_heter64 mix_heter) swap01 1) with
      | Ok (s :: _), Ok (s' :: _) => Nat.eqb (s64_feature s) 1 && negb (Beqb (s64_pos s') (swap01 (s64_pos s))) && Beqb (s64_pos s') (s64_pos s')
      | _, _ => false end = true) by (vm_compute; reflexivity).
    generalize dependent (subregions64 (with_labels mix (ale_heter64 mix_heter) swap01 1)). generalize (subregions64 mix). intros [l|] [l'|]; try discriminate; [|destruct l; discriminate].
    destruct l as [|s l]; [discriminate|]. destruct l' as [|s' l']; [discriminate|]. intros Q H. cbn in H. inversion H as [|? ? ? ? S1 _]; subst. destruct S1 as (_ & E & _).
    apply andb_true_iff in Q as [Q Q2]. apply andb_true_iff in Q as [Q0 Q1]. rewrite Q0 in E. rewrite <- E, Q2 in Q1. discriminate Q1.
Qed.

Print Assumptions C128_pdp.
Print Assumptions C128_ale.
Print Assumptions C128_rhale.
Print Assumptions C128_parts.
Print Assumptions C128_order_matters.
