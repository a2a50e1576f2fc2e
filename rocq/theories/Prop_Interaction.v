(** Property C33: the interaction measures of interaction.py. *)
From Verif Require Import Base Numpy Spec NumpyFacts Utils Helpers HelpersProofs GlobalALE ALEState GlobalPDP Interaction.
Open Scope Qc_scope.
Open Scope list_scope.

(** * C33  H-index and REPID are computable *)
(** The property is false in the strongest sense: on every dataset, for every model and after every history of calls no
    value is ever computed. The PDP functions are called with the keyword [uncertainty], which they do not have. *)
Lemma one_value_raises o f : (f < dim (h_data o))%nat -> one_vs_all_value o f = Raise TypeError.
Proof. intros H. unfold one_vs_all_value, getcol. now rewrite (proj2 (Nat.ltb_lt _ _) H). Qed.
Lemma pair_value_raises o f1 f2 : (f1 < dim (h_data o))%nat -> (f2 < dim (h_data o))%nat -> pairwise_value o f1 f2 = Raise TypeError.
Proof. intros H1 H2. unfold pairwise_value, getcol. now rewrite (proj2 (Nat.ltb_lt _ _) H1), (proj2 (Nat.ltb_lt _ _) H2). Qed.
Lemma Some_inj {A} (a b : A) : Some a = Some b -> a = b.
Proof. congruence. Qed.
Definition hinv (o : hobj) (st : hstate) : Prop :=
  (forall f, hs_one st f = None) /\ (forall a b v, hs_pair st a b = Some v -> a = b /\ v = 0) /\
  ((2 <= dim (h_data o))%nat -> hs_fp st = false) /\ ((1 <= dim (h_data o))%nat -> hs_fo st = false) /\
  (dim (h_data o) = 1%nat -> hs_fp st = true -> hs_pair st 0 0 = Some 0).
Lemma pair_eval st o f1 f2 : hinv o st -> fst (eval_pairwise o st f1 f2) = st /\
  (f1 <> f2 -> snd (eval_pairwise o st f1 f2) = Raise (if (Nat.ltb f1 (dim (h_data o)) && Nat.ltb f2 (dim (h_data o)))%bool then TypeError else IndexError)) /\
  (forall v, snd (eval_pairwise o st f1 f2) = Ok v -> f1 = f2 /\ v = 0).
Proof.
  intros (H1 & H2 & _). unfold eval_pairwise. destruct (Nat.ltb_spec f1 (dim (h_data o))); destruct (Nat.ltb_spec f2 (dim (h_data o))); simpl; [|repeat split; discriminate..].
  destruct (hs_pair st f1 f2) eqn:E.
  - destruct (H2 _ _ _ E) as [-> ->]. simpl. split; [reflexivity|]. split; [congruence|]. intros v Hv. injection Hv as <-. auto.
  - rewrite pair_value_raises by assumption. repeat split; discriminate.
Qed.
Lemma one_eval st o f : hinv o st -> eval_one_vs_all o st f = (st, Raise (if Nat.ltb f (dim (h_data o)) then TypeError else IndexError)).
Proof.
  intros (H1 & H2 & _). unfold eval_one_vs_all. destruct (Nat.ltb_spec f (dim (h_data o))); [|reflexivity]. rewrite H1. now rewrite one_value_raises.
Qed.
Lemma pair_loop_inv o i js : forall st, hinv o st -> fst (pair_loop o st i js) = st.
Proof.
  induction js as [|j js IH]; intros st HI; [reflexivity|]. simpl. destruct (pair_eval st o i j HI) as (E & _).
  destruct (eval_pairwise o st i j) as [st' [v|e]]; simpl in *; subst; [now apply IH|reflexivity].
Qed.
Lemma hinv_diag o st i : hinv o st ->
  hinv o (mkHS (fun a b => if (Nat.eqb a i && Nat.eqb b i)%bool then Some 0 else hs_pair st a b) (hs_one st) (hs_fp st) (hs_fo st)).
Proof.
  intros (A & B & C & C' & C2). split; [exact A|]. split; [|split; [exact C|split; [exact C'|]]]; simpl; [|intros H1 H2; destruct (_ && _)%bool; [reflexivity|now apply C2]]. intros a b v. destruct (Nat.eqb_spec a i); destruct (Nat.eqb_spec b i); simpl; intros E; try (injection E as <-; split; [congruence|reflexivity]); now apply B.
Qed.
Lemma matrix_loop_inv o is_ : forall st, hinv o st -> hinv o (fst (matrix_loop o st is_)).
Proof.
  induction is_ as [|i is_ IH]; intros st HI; [exact HI|]. simpl. pose proof (hinv_diag o st i HI) as H1. set (st1 := mkHS _ _ _ _) in *.
  pose proof (pair_loop_inv o i (seq (i + 1) (dim (h_data o) - (i + 1))) st1 H1) as E. destruct (pair_loop o st1 i _) as [st' [u|e]]; simpl in *; subst; [now apply IH|exact H1].
Qed.
Lemma one_loop_inv o is_ st : hinv o st -> fst (one_loop o st is_) = st.
Proof. intros HI. destruct is_ as [|i is_]; [reflexivity|]. simpl. rewrite one_eval by exact HI. reflexivity. Qed.
Lemma pair_loop_raises o i js st : hinv o st -> (forall j, In j js -> j <> i /\ (j < dim (h_data o))%nat) -> (i < dim (h_data o))%nat ->
  js <> [] -> snd (pair_loop o st i js) = Raise TypeError.
Proof.
  destruct js as [|j js]; intros HS HJ Hi NE; [congruence|]. simpl. destruct (HJ j (or_introl eq_refl)) as [N1 N2]. destruct (pair_eval st o i j HS) as (_ & Q & _).
  specialize (Q (not_eq_sym N1)). rewrite (proj2 (Nat.ltb_lt _ _) Hi), (proj2 (Nat.ltb_lt _ _) N2) in Q. destruct (eval_pairwise o st i j) as [s' [v|e]]; simpl in Q; [discriminate|]. simpl. congruence.
Qed.
(** The pairwise loop fails at the pair (0, 1) as soon as there are two features. *)
Lemma matrix_raises o st : hinv o st -> (2 <= dim (h_data o))%nat -> snd (matrix_loop o st (seq 0 (dim (h_data o)))) = Raise TypeError.
Proof.
  intros HI HD. set (D := dim (h_data o)) in *. replace (seq 0 D) with (0%nat :: seq 1 (D - 1)) by (replace D with (S (D - 1)) at 2 by lia; reflexivity).
  simpl. pose proof (hinv_diag o st 0 HI) as H1. set (s1 := mkHS _ _ _ _) in *. fold D.
  assert (Q : snd (pair_loop o s1 0 (seq 1 (D - 1))) = Raise TypeError).
  { apply pair_loop_raises; [exact H1| |fold D; lia|].
    - intros k Hk. apply in_seq in Hk. fold D. lia.
    - replace (D - 1)%nat with (S (D - 2)) by lia. simpl. discriminate. }
  destruct (pair_loop o s1 0 _) as [s2 [u|e]]; simpl in *; congruence.
Qed.
(** With one feature there is no pair. *)
Lemma matrix_small o st : (dim (h_data o) <= 1)%nat -> snd (matrix_loop o st (seq 0 (dim (h_data o)))) = Ok tt.
Proof. intros HD. destruct (dim (h_data o)) as [|[|n]] eqn:E; [reflexivity| |lia]. simpl. rewrite E. reflexivity. Qed.
Lemma matrix_one o st : dim (h_data o) = 1%nat -> hs_pair (fst (matrix_loop o st (seq 0 (dim (h_data o))))) 0 0 = Some 0.
Proof. intros E. rewrite E. simpl. rewrite E. reflexivity. Qed.
Lemma one_raises o st : hinv o st -> (1 <= dim (h_data o))%nat -> snd (one_loop o st (seq 0 (dim (h_data o)))) = Raise TypeError.
Proof.
  intros HI HD. replace (seq 0 (dim (h_data o))) with (0%nat :: seq 1 (dim (h_data o) - 1)) by (destruct (dim (h_data o)); [lia|simpl; now rewrite Nat.sub_0_r]).
  simpl. rewrite one_eval by exact HI. simpl. destruct (Nat.ltb_spec 0 (dim (h_data o))); [reflexivity|lia].
Qed.
Lemma hfit_spec o st p q : hinv o st -> (1 <= dim (h_data o))%nat ->
  hinv o (fst (hfit o st p q)) /\
  (snd (hfit o st p q) = Ok tt <-> q = false /\ (p = true -> dim (h_data o) = 1%nat)) /\
  (snd (hfit o st p q) = Ok tt \/ snd (hfit o st p q) = Raise TypeError).
Proof.
  intros HI HD. unfold hfit.
  set (r := if p then _ else _).
  assert (R : hinv o (fst r) /\ (snd r = Ok tt <-> (p = true -> dim (h_data o) = 1%nat)) /\ (snd r = Ok tt \/ snd r = Raise TypeError)).
  { subst r. destruct p; [|split; [exact HI|split; [split; [discriminate|reflexivity]|left; reflexivity]]].
    pose proof (matrix_loop_inv o (seq 0 (dim (h_data o))) st HI) as HM.
    destruct (Nat.eq_dec (dim (h_data o)) 1) as [E1|NE].
    - pose proof (matrix_small o st ltac:(lia)) as E. pose proof (matrix_one o st E1) as E0. destruct (matrix_loop o st _) as [s [u|e]]; simpl in *; [|discriminate].
      split; [|split; [split; auto|left; reflexivity]]. destruct HM as (A & B & C & C' & _). split; [exact A|]. split; [exact B|]. split; [intros; lia|]. split; [exact C'|intros _ _; exact E0].
    - pose proof (matrix_raises o st HI ltac:(lia)) as E. destruct (matrix_loop o st _) as [s [u|e]]; simpl in *; [discriminate|].
      split; [exact HM|]. split; [|right; congruence]. split; [discriminate|]. intros K. now specialize (K eq_refl). }
  clearbody r. destruct r as [s [u|e]]; cbn [fst snd] in R; destruct R as (R1 & R2 & R3).
  - destruct q.
    + pose proof (one_raises o s R1 HD) as E. pose proof (one_loop_inv o (seq 0 (dim (h_data o))) s R1) as E'.
      destruct (one_loop o s _) as [s' [v|e]]; simpl in *; [discriminate|]. subst s'. split; [exact R1|]. split; [|right; congruence]. split; [discriminate|]. intros [? _]. discriminate.
    + destruct u. simpl. split; [exact R1|]. split; [|left; reflexivity]. split; [intros _; split; [reflexivity|now apply R2]|reflexivity].
  - simpl. split; [exact R1|]. split; [|now right; destruct R3; [discriminate|]]. split; [discriminate|]. intros [_ K]. now apply R2 in K.
Qed.
Lemma h_plot_matrix_inv o st : hinv o st -> dim (h_data o) = 1%nat -> hs_fp st = true ->
  hinv o (fst (h_plot_matrix o st)) /\ snd (h_plot_matrix o st) = Ok [[0]].
Proof.
  intros (A & B & C & C' & C2) E1 E2. pose proof (C2 E1 E2) as E0. unfold h_plot_matrix.
  assert (M : fmean (concat (h_matrix o st)) = Ok 0).
  { unfold h_matrix. rewrite E1. cbn [seq map concat app]. rewrite E0. reflexivity. }
  rewrite M. cbn [fst snd]. split.
  - split; [exact A|]. split; [|split; [intros; lia|split; [exact C'|]]]; cbn [hs_pair hs_fp].
    + intros a b v. destruct (Nat.eqb_spec a b); cbn [andb]; [|apply B]. destruct (Nat.ltb a (dim (h_data o))); [|apply B].
      intros K. apply Some_inj in K. subst v. auto.
    + intros _ _. rewrite E1. reflexivity.
  - unfold h_matrix. rewrite E1. reflexivity.
Qed.
(** A plot draws nothing but the single 0 of a one-feature dataset: with the bars, or with two features, it raises. *)
Lemma hplot_spec o st m q : hinv o st -> (1 <= dim (h_data o))%nat ->
  hinv o (fst (hplot o st m q)) /\
  snd (hplot o st m q) = if (q || m && Nat.leb 2 (dim (h_data o)))%bool then Raise TypeError
                         else Ok (if m then Some [[0]] else None, None).
Proof.
  intros HI HD. unfold hplot.
  set (p1 := if (_ && m)%bool then _ else _).
  assert (P1 : hinv o (fst p1) /\ snd p1 = (if (m && Nat.leb 2 (dim (h_data o)))%bool then Raise TypeError else Ok tt) /\
               (m = true -> dim (h_data o) = 1%nat -> hs_fp (fst p1) = true)).
  { subst p1. destruct m; [|rewrite Bool.andb_false_r; cbn; split; [exact HI|split; [reflexivity|discriminate]]].
    destruct (hs_fp st) eqn:EF; cbn [negb andb].
    - cbn [fst snd]. destruct HI as (A & B & C & C' & C2). destruct (Nat.leb_spec 2 (dim (h_data o))) as [K|K]; [rewrite C in EF by exact K; discriminate|]. split; [exact (conj A (conj B (conj C (conj C' C2))))|]. split; [reflexivity|auto].
    - destruct (hfit_spec o st true false HI HD) as (F1 & F2 & F3). split; [exact F1|]. split.
      + destruct (Nat.leb_spec 2 (dim (h_data o))) as [K|K].
        * destruct F3 as [F3|F3]; [|exact F3]. apply F2 in F3 as [_ F3]. specialize (F3 eq_refl). lia.
        * apply F2. split; [reflexivity|]. intros _. lia.
      + intros _ E1. unfold hfit. pose proof (matrix_small o st ltac:(lia)) as E. destruct (matrix_loop o st _) as [s [u|e]]; [reflexivity|discriminate]. }
  clearbody p1. destruct p1 as [s [u|e]]; cbn [fst snd] in P1; destruct P1 as (P1 & P2 & P3).
  2:{ cbn [fst snd]. split; [exact P1|]. destruct (m && Nat.leb 2 (dim (h_data o)))%bool; [|discriminate]. rewrite Bool.orb_true_r. congruence. }
  destruct (m && Nat.leb 2 (dim (h_data o)))%bool eqn:EM; [discriminate|]. rewrite Bool.orb_false_r. clear P2.
  destruct q.
  - assert (EO : hs_fo s = false) by (apply P1; exact HD). rewrite EO. cbn [negb andb].
    destruct (hfit_spec o s false true P1 HD) as (F1 & F2 & F3). destruct (hfit o s false true) as [s' [v|e]]; cbn [fst snd] in *.
    + destruct v. destruct (proj1 F2 eq_refl) as [? _]. discriminate.
    + split; [exact F1|]. destruct F3; congruence.
  - rewrite Bool.andb_false_r. cbn [fst snd]. destruct m; [|split; [exact P1|reflexivity]].
    assert (E1 : dim (h_data o) = 1%nat) by (cbn [andb] in EM; apply Nat.leb_gt in EM; lia).
    destruct (h_plot_matrix_inv o s P1 E1 (P3 eq_refl E1)) as [Q1 Q2]. destruct (h_plot_matrix o s) as [s' r]; cbn [fst snd] in *. subst r. cbn. split; [exact Q1|reflexivity].
Qed.
Lemma hrun_inv o ks : (1 <= dim (h_data o))%nat -> forall st, hinv o st -> hinv o (hrun o st ks).
Proof.
  intros HD. induction ks as [|k ks IH]; intros st HI; [exact HI|]. simpl. apply IH. destruct k as [p q|a b|f|m q]; simpl.
  - now apply hfit_spec.
  - destruct (pair_eval st o a b HI) as (E & _). now rewrite E.
  - now rewrite one_eval.
  - now apply hplot_spec.
Qed.
Lemma hinv_fresh o : hinv o hfresh. Proof. repeat split; discriminate. Qed.

Theorem C33_hindex_refuted : forall o ks f1 f2 f,
  let st := hrun o hfresh ks in let D := dim (h_data o) in
  (1 <= D)%nat ->
  (f1 <> f2 -> (f1 < D)%nat -> (f2 < D)%nat -> snd (eval_pairwise o st f1 f2) = Raise TypeError) /\
  ((f < D)%nat -> snd (eval_one_vs_all o st f) = Raise TypeError) /\
  (* the only value ever returned is the 0 that a failed fit leaves on the diagonal *)
  (forall v, snd (eval_pairwise o st f1 f2) = Ok v -> f1 = f2 /\ v = 0) /\
  (forall b, snd (hfit o st b true) = Raise TypeError) /\
  ((2 <= D)%nat -> forall b, snd (hfit o st true b) = Raise TypeError) /\
  (forall b, snd (hplot o st b true) = Raise TypeError) /\
  ((2 <= D)%nat -> forall b, snd (hplot o st true b) = Raise TypeError).
Proof.
  intros o ks f1 f2 f st D HD. pose proof (hrun_inv o ks HD hfresh (hinv_fresh o)) as HI. fold st in HI.
  destruct (pair_eval st o f1 f2 HI) as (_ & P2 & P3). repeat split.
  - intros NE H1 H2. rewrite (P2 NE). fold D. now rewrite (proj2 (Nat.ltb_lt _ _) H1), (proj2 (Nat.ltb_lt _ _) H2).
  - intros H. rewrite one_eval by exact HI. simpl. fold D. now rewrite (proj2 (Nat.ltb_lt _ _) H).
  - eapply P3; eassumption.
  - eapply P3; eassumption.
  - intros b. destruct (hfit_spec o st b true HI HD) as (_ & F2 & [F3|F3]); [|exact F3]. apply F2 in F3 as [? _]. discriminate.
  - intros H2 b. destruct (hfit_spec o st true b HI HD) as (_ & F2 & [F3|F3]); [|exact F3]. apply F2 in F3 as [_ K]. specialize (K eq_refl). fold D in K. lia.
  - intros b. now rewrite (proj2 (hplot_spec o st b true HI HD)).
  - intros H2 b. rewrite (proj2 (hplot_spec o st true b HI HD)). apply Nat.leb_le in H2. fold D. rewrite H2. now rewrite Bool.orb_true_r.
Qed.
Print Assumptions C33_hindex_refuted.

(** REPID: never a value; exactly a TypeError on every non-empty rectangular dataset. *)
Lemma repid_value_raises o f v : repid_value o f <> Ok v.
Proof.
  intros H. unfold repid_value in H. apply bind_ok in H as ([mins maxs] & _ & H). apply bind_ok in H as ([pc ps] & _ & H).
  destruct (pfit pc ps [f] (PyBool false) default_pts true) as [ps' r]. apply bind_ok in H as (? & _ & H). apply bind_ok in H as (? & _ & H).
  apply bind_ok in H as (? & _ & H). discriminate.
Qed.
Definition qinv (o : repid) (st : qstate) : Prop := forall f, fst st f = None.
Lemma repid_eval_spec o m f : (forall f, m f = None) -> fst (repid_eval o m f) = m /\ forall v, snd (repid_eval o m f) <> Ok v.
Proof.
  intros Hm. unfold repid_eval. destruct (Nat.ltb f (dim (q_data o))); [|split; [reflexivity|discriminate]]. rewrite Hm. destruct (repid_value o f) eqn:E; [now apply repid_value_raises in E|]. split; [reflexivity|discriminate].
Qed.
Lemma repid_fit_spec o st fs : qinv o st -> qinv o (fst (repid_fit o st fs)) /\ (snd (fst (repid_fit o st fs)) = true -> snd st = true \/ fs = []) /\
  (fs <> [] -> snd (repid_fit o st fs) <> Ok tt).
Proof.
  intros HI. unfold repid_fit. destruct fs as [|f fs].
  - split; [exact HI|]. split; [now right|congruence].
  - simpl. destruct (repid_eval_spec o (fst st) f HI) as [E1 E2]. destruct (repid_eval o (fst st) f) as [m [v|e]]; simpl in *; [now destruct (E2 v)|]. subst m.
    split; [exact HI|]. split; [now left|discriminate].
Qed.
(** After every history: no value is computed and (unless [fit] was called with no feature) no plot is drawn. *)
Theorem C33_repid_refuted : forall o ks f v bars,
  let st := qrun o qfresh ks in
  snd (repid_eval o (fst st) f) <> Ok v /\
  (forall fs, fs <> [] -> snd (repid_fit o st fs) <> Ok tt) /\
  ((1 <= dim (q_data o))%nat -> ~ In (QFit []) ks -> snd (repid_plot o st) <> Ok bars).
Proof.
  intros o ks f v bars st.
  assert (G : forall ks s, qinv o s -> qinv o (qrun o s ks) /\ ((1 <= dim (q_data o))%nat -> snd s = false -> ~ In (QFit []) ks -> snd (qrun o s ks) = false)).
  { clear. induction ks as [|k ks IH]; intros s HI; [split; [exact HI|auto]|].
    assert (K : qinv o (qstep o s k) /\ ((1 <= dim (q_data o))%nat -> snd s = false -> k <> QFit [] -> snd (qstep o s k) = false)).
    { destruct k as [fs|g|].
      - destruct (repid_fit_spec o s fs HI) as (A & B & _). split; [exact A|]. intros HD Hs NE. simpl. destruct (snd (fst (repid_fit o s fs))); [|reflexivity]. destruct (B eq_refl); [congruence|now subst fs].
      - simpl. split; [|auto]. unfold qinv. simpl. destruct (repid_eval_spec o (fst s) g HI) as [E _]. rewrite E. exact HI.
      - simpl. unfold repid_plot. destruct (snd s) eqn:ES; [split; [exact HI|congruence]|].
        destruct (repid_fit_spec o s (seq 0 (dim (q_data o))) HI) as (A & B & _).
        destruct (repid_fit o s _) as [s' [u|e]] eqn:EF; simpl in *; (split; [exact A|]); intros HD _ _; (destruct (snd s'); [|reflexivity]); (destruct (B eq_refl) as [?|B']; [congruence|]); destruct (dim (q_data o)); [lia|discriminate|lia|discriminate]. }
    destruct K as [K1 K2]. destruct (IH _ K1) as [I1 I2]. split; [exact I1|]. intros HD Hs NI. simpl. apply I2; [exact HD| |intros C; apply NI; now right]. apply K2; [exact HD|exact Hs|]. intros C. apply NI. now left. }
  destruct (G ks qfresh (fun _ => eq_refl)) as [G1 G2]. fold st in G1, G2. split; [now apply repid_eval_spec|]. split.
  - intros fs NE. now apply repid_fit_spec.
  - intros HD NI. specialize (G2 HD eq_refl NI). unfold repid_plot. rewrite G2. destruct (repid_fit_spec o st (seq 0 (dim (q_data o))) G1) as (_ & _ & K).
    assert (NE : seq 0 (dim (q_data o)) <> []) by (destruct (dim (q_data o)); [lia|discriminate]). specialize (K NE).
    destruct (repid_fit o st _) as [s' [u|e]]; simpl in *; [now destruct u|discriminate].
Qed.
Print Assumptions C33_repid_refuted.
Definition ex_inter : data := mkData Float64 2 [qs [0; 1]; qs [1; 3]; qs [2; 0]].
Example C33_instance :
  match hindex_init (fun _ n => seq 0 n) ex_inter (map (fun r => r@0 * r@1)) (PyStr "all") with
  | Ok (o, st) => snd (eval_pairwise o st 0 1) = Raise TypeError /\ snd (eval_pairwise o (hrun o st [HFit true true; HPlot true false]) 0 0) = Ok 0 /\
                  snd (hplot o st true false) = Raise TypeError
  | Raise _ => False
  end /\
  match repid_init (fun _ n => seq 0 n) (fun v => v) ex_inter (map (fun r => r@0 * r@1)) (PyStr "all") with
  | Ok o => snd (repid_eval o (fun _ => None) 1) = Raise TypeError
  | Raise _ => False
  end.
Proof. split; [split; [|split]|]; vm_compute; reflexivity. Qed.
