(** Properties C34, C61, C62: SHAP dependence objects (global_effect_shap.py). See Spec.v, PartSpec.v and the
    definitions [sorts], [rows_inside], [shap_fit], [shap_shift] at the top of ShapProofs.v for the vocabulary. *)
From Verif Require Import Base Numpy Spec NumpyFacts Utils Helpers HelpersProofs GlobalALE ALEState PartSpec GlobalShap ShapProofs Indices.
Open Scope Qc_scope.
Open Scope list_scope.

(** A concrete object for the examples: the "explainer" centres each column, the "spline" is a straight line. *)
Fixpoint place (l : list Qc) (i : nat) (sorted : list nat) : list nat :=
  match sorted with [] => [i] | j :: s => if l@i <=? l@j then i :: j :: s else j :: place l i s end.
Definition ex_argsort (l : list Qc) : list nat := fold_right (place l) [] (seq 0 (length l)).
Lemma place_perm l i s : Permutation (place l i s) (i :: s).
Proof. induction s as [|j s IH]; simpl; [apply Permutation_refl|]. destruct (l@i <=? l@j); [apply Permutation_refl|]. eapply perm_trans; [apply perm_skip; exact IH|apply perm_swap]. Qed.
Lemma place_sorted l i s : Sorted Qcle (map (fun k => l@k) s) -> Sorted Qcle (map (fun k => l@k) (place l i s)).
Proof.
  induction s as [|j s IH]; simpl; intros H; [repeat constructor|]. destruct (Qcleb_spec l@i l@j) as [L|L]; [constructor; [exact H|constructor; exact L]|].
  inversion H as [|? ? H1 H2]. subst. simpl. constructor; [apply IH; exact H1|].
  destruct s as [|k s]; simpl; [constructor; now apply Qclt_le_weak|]. inversion H2. subst. destruct (l@i <=? l@k); simpl; constructor; [now apply Qclt_le_weak|assumption].
Qed.
Lemma ex_sorts : sorts ex_argsort.
Proof.
  intros l. unfold ex_argsort. generalize (seq 0 (length l)). intros p. induction p as [|i p [IH1 IH2]]; simpl; [split; constructor|]. split.
  - eapply perm_trans; [apply place_perm|]. now apply perm_skip.
  - now apply place_sorted.
Qed.
Definition ex_explain (Z : Mat) : res Mat :=
  match Z with [] => Raise ValueError | r :: _ => Ok (map (fun q => map (fun f => q@f * q@f - mean (map (fun p => p@f) Z)) (seq 0 (length r))) Z) end.
Definition ex_spline (xs ys : list Qc) : res (Qc -> Qc) :=
  if Nat.leb (length xs) 3 then Raise ValueError else Ok (fun x => mean ys + x).
Definition ex_obj (lo hi : list Z) : sconfig := mkSC ex_explain ex_argsort ex_spline (map qz lo) (map qz hi).
Definition ex_rows : data := mkData Float64 2 [qs [3; 0]; qs [1; 1]; qs [2; 9]; qs [0; 2]; qs [4; 3]].
Definition showy (r : res (list Qc * option (list Qc))) := rmap (fun p => (show (fst p), option_map show (snd p))) r.

(** * C34  SHAP-DP evaluation and centering *)
(** After any history of calls: eval evaluates the spline fitted to the (value, shap value) pairs, sorted by value,
    of the instances [Z] inside the limits (of the feature, and of those features used before), minus the constant. *)
Theorem C34_eval : forall c X ks f xs het cv ce y h, sorts (s_argsort c) -> prep_cent cv = Ok ce ->
  snd (seval c (srun c (sfresh X) ks) f xs het cv) = Ok (y, h) ->
  exists T pairs m s z n, In f T /\ (forall t, In t T -> t = f \/ exists k, In k ks /\ stouches t k) /\
    let Z := rows_inside (s_mins c) (s_maxs c) T (rows X) in
    shap_fit (s_explain c) (s_spline c) Z f pairs m s /\ spoints ks f n /\
    match ce with
    | NoCent => y = map m xs
    | _ => y = map (fun x => m x - z) xs /\ shap_shift m (map fst pairs) ce n z
    end /\ h = (if het then Some (map s xs) else None).
Proof.
  intros c X ks f xs het cv ce y h SO EC HE. destruct (seval_history c SO X ks f xs het cv ce y h EC HE) as (T & pairs & m & s & z & n & H1 & H2 & H3 & H4 & H5 & H6 & H7 & H8 & _).
  exists T, pairs, m, s, z, n. split; [exact H1|]. split; [exact H2|]. split; [exact H3|]. split; [exact H4|]. split; [|exact H8].
  destruct ce; [|split; assumption..]. rewrite H7. apply map_ext. intros x. ring.
Qed.
Print Assumptions C34_eval.
Lemma sorted_head_min (l : list Qc) : Sorted Qcle l -> l <> [] -> is_min l (l@0).
Proof.
  intros S NE. destruct l as [|a l]; [congruence|]. split; [now left|]. simpl. apply Sorted_StronglySorted in S; [|intros x y z; apply Qcle_trans].
  inversion S as [|? ? _ HF]. intros x [<-|Hx]; [apply Qcle_refl|]. rewrite Forall_forall in HF. now apply HF.
Qed.
Lemma sorted_last_max (l : list Qc) : Sorted Qcle l -> l <> [] -> is_max l (l@(length l - 1)).
Proof.
  intros S NE. apply Sorted_StronglySorted in S; [|intros x y z; apply Qcle_trans]. split; [apply nth_In; destruct l; [congruence|simpl; lia]|].
  induction S as [|a l S IH HF]; [congruence|]. intros x Hx. replace (length (a :: l) - 1)%nat with (length l) by (simpl; lia). destruct l as [|b l].
  - destruct Hx as [<-|[]]. apply Qcle_refl.
  - change (x <= (b :: l)@(length l)). specialize (IH ltac:(discriminate)). replace (length (b :: l) - 1)%nat with (length l) in IH by (simpl; lia).
    destruct Hx as [<-|Hx]; [|now apply IH]. eapply Qcle_trans; [rewrite Forall_forall in HF; apply HF; now left|apply IH; now left].
Qed.
Lemma fit_values explain spline Z f pairs m s : shap_fit explain spline Z f pairs m s -> Permutation (map fst pairs) (values Z f).
Proof.
  intros (V & _ & P & L & _). eapply perm_trans; [apply Permutation_map; exact P|].
  assert (LV : (length (values Z f) <= length (values V f))%nat).
  { pose proof (Permutation_length P) as E. rewrite combine_length, L in E. unfold values in E |- *. rewrite !map_length in *. lia. }
  replace (map fst (combine (values Z f) (values V f))) with (values Z f); [apply Permutation_refl|].
  clear -LV. revert LV. generalize (values V f). induction (values Z f) as [|a l IH]; intros [|b l'] H; simpl in *; try reflexivity; try lia. f_equal. apply IH. lia.
Qed.
Lemma perm_is_min l l' v : Permutation l l' -> is_min l v -> is_min l' v.
Proof. intros P [H1 H2]. split; [now apply (Permutation_in _ P)|]. intros x Hx. apply H2. now apply (Permutation_in _ (Permutation_sym P)). Qed.
Lemma perm_is_max l l' v : Permutation l l' -> is_max l v -> is_max l' v.
Proof. intros P [H1 H2]. split; [now apply (Permutation_in _ P)|]. intros x Hx. apply H2. now apply (Permutation_in _ (Permutation_sym P)). Qed.
(** zero_start: the curve is 0 at the smallest value of the instances used. *)
Theorem C34_zero_start : forall c X ks f xs het y h, sorts (s_argsort c) ->
  snd (seval c (srun c (sfresh X) ks) f xs het (PyStr "zero_start")) = Ok (y, h) ->
  exists T lowest, In f T /\ (forall t, In t T -> t = f \/ exists k, In k ks /\ stouches t k) /\
    is_min (values (rows_inside (s_mins c) (s_maxs c) T (rows X)) f) lowest /\
    forall i, (i < length xs)%nat -> xs@i = lowest -> y@i = 0.
Proof.
  intros c X ks f xs het y h SO HE. destruct (seval_history c SO X ks f xs het (PyStr "zero_start") ZeroStart y h eq_refl HE) as (T & pairs & m & s & z & n & H1 & H2 & H3 & H4 & H5 & H6 & H7 & H8 & _).
  assert (NE : map fst pairs <> []) by (intros E; apply map_eq_nil in E; now apply H5).
  pose proof (fit_values _ _ _ _ _ _ _ H3) as P. destruct H3 as (V & _ & _ & _ & HS & _).
  exists T, (nth 0 (map fst pairs) 0). split; [exact H1|]. split; [exact H2|]. split; [apply (perm_is_min _ _ _ P); now apply sorted_head_min|].
  intros i Hi Ei. rewrite H7, nth_map_in with (d := 0) by assumption. rewrite Ei, H6. ring.
Qed.
Print Assumptions C34_zero_start.
(** zero_integral: the trapezoidal integral of the centered curve, over the range of the instances used and at the
    points used for centering, is 0. *)
Theorem C34_zero_integral : forall c X ks f het cv y h xs, sorts (s_argsort c) -> prep_cent cv = Ok ZeroIntegral ->
  snd (seval c (srun c (sfresh X) ks) f xs het cv) = Ok (y, h) ->
  exists T lowest highest n, In f T /\ (forall t, In t T -> t = f \/ exists k, In k ks /\ stouches t k) /\
    is_min (values (rows_inside (s_mins c) (s_maxs c) T (rows X)) f) lowest /\
    is_max (values (rows_inside (s_mins c) (s_maxs c) T (rows X)) f) highest /\ spoints ks f n /\
    (xs = linspace lowest highest n -> trapz y xs = 0).
Proof.
  intros c X ks f het cv y h xs SO EC HE. destruct (seval_history c SO X ks f xs het _ ZeroIntegral y h EC HE) as (T & pairs & m & s & z & n & H1 & H2 & H3 & H4 & H5 & H6 & H7 & H8 & _).
  assert (NE : map fst pairs <> []) by (intros E; apply map_eq_nil in E; now apply H5).
  pose proof (fit_values _ _ _ _ _ _ _ H3) as P. destruct H3 as (V & _ & _ & _ & HS & _).
  exists T, (nth 0 (map fst pairs) 0), (nth (length (map fst pairs) - 1) (map fst pairs) 0), n. split; [exact H1|]. split; [exact H2|].
  split; [apply (perm_is_min _ _ _ P); now apply sorted_head_min|]. split; [apply (perm_is_max _ _ _ P); now apply sorted_last_max|].
  split; [exact H4|]. destruct H6 as [H6 HZ]. set (a := (nth 0 (map fst pairs) 0)) in *. set (b := (nth (length (map fst pairs) - 1) (map fst pairs) 0)) in *. intros Exs.
  rewrite H7. destruct n as [|[|n]].
  - rewrite Exs. reflexivity.
  - rewrite Exs. reflexivity.
  - rewrite Exs. rewrite trapz_shift by (unfold linspace; simpl; discriminate). rewrite HZ.
    set (A := trapz _ _). assert (L : last (linspace a b (S (S n))) 0 = b).
    { unfold linspace. rewrite seq_S, map_app. change (map ?h [(0 + S n)%nat]) with [h (S n)]. rewrite last_last. now rewrite Nat.eqb_refl. }
    assert (F : nth 0 (linspace a b (S (S n))) 0 = a) by (unfold linspace; simpl; rewrite qn_0; ring).
    rewrite L, F. field. intros E. apply H6. qlra.
Qed.
Print Assumptions C34_zero_integral.
(** Centering does not change the heterogeneity, and shifts the curve by a constant (limits that contain the data). *)
Theorem C34_heterogeneity : forall c X ks1 ks2 f xs cv y1 y2 h1 h2, all_inside (s_mins c) (s_maxs c) X ->
  Forall scall_default ks1 -> Forall scall_default ks2 ->
  snd (seval c (srun c (sfresh X) ks1) f xs true (PyBool false)) = Ok (y1, h1) ->
  snd (seval c (srun c (sfresh X) ks2) f xs true cv) = Ok (y2, h2) ->
  h1 = h2 /\ exists z, y2 = map (fun v => v - z) y1.
Proof.
  intros c X ks1 ks2 f xs cv y1 y2 h1 h2 IN K1 K2 E1 E2. destruct (le_lt_dec (dim X) f) as [Hf|Hf].
  { rewrite seval_dim_raises with (X := X) in E1; [discriminate| |exact Hf]. now apply srun_sinv. }
  destruct (prep_cent cv) as [ce|e] eqn:EC; [|unfold seval in E2; rewrite EC in E2; discriminate].
  rewrite (seval_pure c X IN _ f xs true _ NoCent) in E1; [|apply srun_sinv; [exact IN|exact K1|apply sinv_fresh]|reflexivity|exact Hf].
  rewrite (seval_pure c X IN _ f xs true _ ce) in E2; [|apply srun_sinv; [exact IN|exact K2|apply sinv_fresh]|exact EC|exact Hf].
  unfold pure_eval in *. apply bind_ok in E2 as (v & F2 & E2). rewrite (sfit_feature_other c X f ce NoCent (PyInt 100) (PyInt 100) v F2) in E1.
  apply bind_ok in E1 as (w & F1 & E1). injection F1 as <-.
  destruct (getn (s_mins c) f); [|discriminate]. destruct (getn (s_maxs c) f); [|discriminate]. unfold bind at 1 2 in E1. unfold bind at 1 2 in E2.
  apply bind_ok in E1 as (_ & _ & E1). apply bind_ok in E2 as (_ & _ & E2). injection E1 as <- <-. injection E2 as <- <-. split; [reflexivity|].
  destruct ce; [exists 0; rewrite map_map; apply map_ext; intros; simpl; ring|exists (f_norm v); reflexivity..].
Qed.
Print Assumptions C34_heterogeneity.
Example C34_instance :
  showy (snd (seval (ex_obj [0; 0]%Z [4; 9]%Z) (sfresh ex_rows) 0 (qs [0; 4]) true (PyStr "zero_start"))) = Ok ([0; 4]%Q, Some [22 # 5; 42 # 5]%Q) /\
  showy (snd (seval (ex_obj [0; 0]%Z [4; 9]%Z) (sfresh ex_rows) 0 (qs [0; 4]) false (PyBool true))) = Ok ([-2; 2]%Q, None) /\
  showy (snd (seval (ex_obj [0; 0]%Z [4; 9]%Z) (sfresh ex_rows) 0 (qs [0; 4]) false (PyBool false))) = Ok ([4; 8]%Q, None).
Proof. repeat split; vm_compute; reflexivity. Qed.

(** * C61  A ShapDP object does not depend on the history of calls *)
Theorem C61_history_partial : forall c X ks f xs het cv, all_inside (s_mins c) (s_maxs c) X -> Forall scall_default ks ->
  snd (seval c (srun c (sfresh X) ks) f xs het cv) = snd (seval c (sfresh X) f xs het cv).
Proof. intros. now apply seval_history_independent. Qed.
Print Assumptions C61_history_partial.
(** With user-given axis limits that exclude an instance, evaluating one feature changes the curve of another one: the
    instances outside the limits of the first feature are removed from the object's data. *)
Theorem C61_refuted : exists c X f xs y1 y2 h1 h2, sorts (s_argsort c) /\
  snd (seval c (sfresh X) f xs false (PyBool false)) = Ok (y1, h1) /\
  snd (seval c (srun c (sfresh X) [SEval 1 (qs [1]) false (PyBool false)]) f xs false (PyBool false)) = Ok (y2, h2) /\ y1 <> y2.
Proof.
  exists (ex_obj [0; 0]%Z [4; 5]%Z), ex_rows, 0%nat, (qs [0]). eexists _, _, _, _. split; [apply ex_sorts|]. split; [vm_compute; reflexivity|]. split; [vm_compute; reflexivity|].
  intros E. apply (f_equal show) in E. vm_compute in E. discriminate.
Qed.
Print Assumptions C61_refuted.
Example C61_instance : all_inside (map qz [0; 0]%Z) (map qz [4; 9]%Z) ex_rows /\
  showy (snd (seval (ex_obj [0; 0]%Z [4; 9]%Z) (srun (ex_obj [0; 0]%Z [4; 9]%Z) (sfresh ex_rows) [SFit [1; 0]%nat (PyBool true) (PyInt 100); SEval 1 (qs [1]) true (PyStr "zero_start")]) 0 (qs [0; 4]) false (PyBool false))) = Ok ([4; 8]%Q, None).
Proof.
  split; [|vm_compute; reflexivity]. intros [|[|f]] r Hf Hr; [| |simpl in Hf; lia]; simpl in Hr;
    repeat (destruct Hr as [<-|Hr]; [split; apply Qcleb_le; vm_compute; reflexivity|]); destruct Hr.
Qed.

(** * C62  The attribute [indices] tells which instances were kept *)
(** [correct Z idx kept]: [idx] gives for each kept instance its position in the dataset [Z]. *)
Definition correct (Z : Mat) (idx : list nat) (kept : Mat) : Prop :=
  length idx = length kept /\ forall i, (i < length kept)%nat -> nth_error Z (nth i idx 0%nat) = nth_error kept i.
Lemma take_nth (Z : Mat) idx kept : select_rows Z idx = Ok kept -> correct Z idx kept.
Proof.
  unfold select_rows, take. revert kept. induction idx as [|a idx IH]; intros kept H; simpl in H.
  - injection H as <-. split; [reflexivity|]. simpl. lia.
  - apply bind_ok in H as (r & H1 & H). apply bind_ok in H as (rs & H2 & H). injection H as <-. destruct (IH rs H2) as [L HI]. split; [simpl; now rewrite L|].
    intros [|i] Hi; simpl in *; [|apply HI; lia]. unfold getn in H1. destruct (nth_error Z a); [now injection H1 as ->|discriminate].
Qed.
Lemma base_select_correct choice nof Z idx kept : base_select choice nof Z = Ok (idx, kept) -> correct Z idx kept.
Proof.
  intros H. unfold base_select in H. apply bind_ok in H as ([n i] & _ & H). apply bind_ok in H as (rs & H2 & H). injection H as <- <-. now apply take_nth.
Qed.
(** True of ALE, PDP, DerPDP and of every regional object. *)
Theorem C62_indices_partial : forall k choice nof Z idx kept, k <> CRHALE -> k <> CShapDP ->
  built k choice nof Z = Ok (idx, kept) -> correct Z idx kept.
Proof. intros [] choice nof Z idx kept H1 H2 H; try congruence; now apply (base_select_correct choice nof). Qed.
Print Assumptions C62_indices_partial.
Theorem C62_regional : forall choice nof Z idx kept, regional_built choice nof Z = Ok (idx, kept) -> correct Z idx kept.
Proof. intros. now apply (base_select_correct choice nof). Qed.
Print Assumptions C62_regional.
(** False of RHALE and ShapDP: the base class overwrites the attribute with 0, 1, 2, .... *)
Theorem C62_refuted : forall k, k = CRHALE \/ k = CShapDP -> exists choice Z idx kept,
  built k choice (PyInt 2) Z = Ok (idx, kept) /\ idx = [0; 1]%nat /\ ~ correct Z idx kept.
Proof.
  intros k Hk. exists (fun N n => map (fun i => N - 1 - i)%nat (seq 0 n)), [qs [1]; qs [2]; qs [3]], [0; 1]%nat, [qs [3]; qs [2]].
  assert (NC : ~ correct [qs [1]; qs [2]; qs [3]] [0; 1]%nat [qs [3]; qs [2]]).
  { intros [_ H]. specialize (H 0%nat ltac:(simpl; lia)). vm_compute in H. discriminate. }
  destruct Hk as [-> | ->]; (split; [vm_compute; reflexivity|split; [reflexivity|exact NC]]).
Qed.
Print Assumptions C62_refuted.
(** [built] agrees with the constructors of the ALE model. *)
Lemma built_construct choice k X model nof al E c st : construct choice k X model nof al E = Ok (c, st) ->
  exists idx, built (match k with KALE => CALE | KRHALE _ => CRHALE end) choice nof (rows X) = Ok (idx, rows (c_data c)).
Proof.
  intros H. unfold construct in H. apply bind_ok in H as ([n idx] & H1 & H). apply bind_ok in H as (rs & H2 & H). apply bind_ok in H as (es & H3 & H).
  apply bind_ok in H as ([mins maxs] & H4 & H). injection H as <- _. simpl.
  assert (B : base_select choice nof (rows X) = Ok (idx, rs)) by (unfold base_select; rewrite H1; cbn [bind]; rewrite H2; reflexivity).
  destruct k; [eauto|]. simpl. rewrite B. unfold bind at 1. exists (seq 0 (length rs)). unfold base_select. simpl. unfold select_rows.
  replace (take rs (seq 0 (length rs))) with (Ok rs); [reflexivity|]. symmetry. clear. unfold take.
  assert (G : forall pre, mapM (getn (pre ++ rs)) (seq (length pre) (length rs)) = Ok rs).
  { induction rs as [|r rs IH]; intros pre; [reflexivity|]. simpl. unfold getn at 1. rewrite nth_error_app2, Nat.sub_diag by lia. simpl.
    specialize (IH (pre ++ [r])). rewrite <- app_assoc, app_length in IH. simpl in IH. rewrite Nat.add_1_r in IH. rewrite IH. reflexivity. }
  exact (G []).
Qed.
Example C62_instance : built CPDP (fun N n => map (fun i => N - 1 - i)%nat (seq 0 n)) (PyInt 2) [qs [1]; qs [2]; qs [3]] = Ok ([2; 1]%nat, [qs [3]; qs [2]]).
Proof. vm_compute. reflexivity. Qed.
