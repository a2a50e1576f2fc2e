(** Property C90: an ALE/RHALE/PDP/DerPDP curve of a feature does not depend on where its column stands in the table, nor on columns
    the model does not read. [sel] lists the columns of the second table, in its order, by their positions in the first; the second
    model returns on a reduced row what the first returns on the full one. The histories on the second object name the features by their
    new positions, those on the first by [old]. *)
From Verif Require Import Base Numpy Spec NumpyFacts Utils UtilsProofs Helpers HelpersProofs Integrate Binning GlobalALE GlobalPDP ALEState ALEHist PDPProofs RegOrder OrderProofs Columns.
Open Scope Qc_scope.
Open Scope list_scope.

(** some columns of a table with D columns, each once *)
Definition columns (sel : list nat) (D : nat) : Prop := sel <> [] /\ NoDup sel /\ forall s, In s sel -> (s < D)%nat.
(** the two models *)
Definition reads_columns (sel : list nat) (D : nat) (g g' : list Qc -> Qc) : Prop := forall r, length r = D -> g' (pick sel r) = g r.
Definition reads_columns_jac (sel : list nat) (D : nat) (G G' : list Qc -> list Qc) : Prop := forall r, length r = D -> length (G r) = D /\ G' (pick sel r) = pick sel (G r).
Definition kinds (sel : list nat) (D : nat) (k k' : kind) : Prop :=
  (k = KALE /\ k' = KALE) \/ (k = KRHALE None /\ k' = KRHALE None) \/
  exists G G', k = KRHALE (Some (map G)) /\ k' = KRHALE (Some (map G')) /\ reads_columns_jac sel D G G'.
Definition reduced_limits (sel : list nat) (D : nat) (al al' : option (list Qc * list Qc)) : Prop :=
  match al, al' with
  | None, None => True
  | Some (mins, maxs), Some (mins', maxs') => length mins = D /\ length maxs = D /\ mins' = pick sel mins /\ maxs' = pick sel maxs
  | _, _ => False
  end.

Lemma select_pick sel (Z : Mat) idx : select_rows (map (pick sel) Z) idx = rmap (map (pick sel)) (select_rows Z idx).
Proof.
  unfold select_rows, take. induction idx as [|i idx IH]; [reflexivity|]. cbn [mapM]. rewrite getn_map. destruct (getn Z i); [|reflexivity]. unfold rmap at 1. cbn [bind]. rewrite IH.
  destruct (mapM (getn Z) idx); reflexivity.
Qed.
Lemma select_square D (Z Y : Mat) idx : square D Z -> select_rows Z idx = Ok Y -> square D Y.
Proof.
  intros Q. unfold select_rows, take. revert Y. induction idx as [|i idx IH]; intros Y H; cbn [mapM] in H; [injection H as <-; constructor|].
  apply bind_ok in H as (a & H1 & H). apply bind_ok in H as (b & H2 & H). injection H as <-. constructor; [|now apply IH].
  apply (getn_inv _ _ _ []) in H1 as (L & <-). eapply Forall_forall in Q; [exact Q|]. now apply nth_In.
Qed.

Theorem C90_ale : forall choice sel X k k' g g' nof al al' (E : option Mat),
  wf_data X -> columns sel (dim X) -> reads_columns sel (dim X) g g' -> kinds sel (dim X) k k' -> reduced_limits sel (dim X) al al' ->
  match construct choice k X (map g) nof al E, construct choice k' (pick_data sel X) (map g') nof al' (option_map (map (pick sel)) E) with
  | Ok (c, st), Ok (c', st') => forall rt ks j xs het cv, Forall (names_known sel) ks -> (j < length sel)%nat ->
      snd (eval c' rt (run c' rt st' ks) j xs het cv) = snd (eval c rt (run c rt st (map (rename_call sel) ks)) (old sel j) xs het cv)
  | Raise e, Raise e' => e = e'
  | _, _ => False
  end.
Proof.
  intros choice sel X k k' g g' nof al al' E WF (NE & ND & IN) GG KK AL. unfold construct. cbn [rows pick_data dt dim]. rewrite map_length.
  assert (Q : square (dim X) (rows X)) by (apply Forall_forall, WF).
  destruct (prep_nof_instances choice nof (length (rows X))) as [(m & idx)|e]; cbn [bind]; [|reflexivity].
  rewrite select_pick. destruct (select_rows (rows X) idx) as [Y|e] eqn:EY; cbn [rmap bind]; [|reflexivity].
  pose proof (select_square _ _ _ _ Q EY) as QY.
  set (es := match k with KALE => _ | _ => _ end). set (es' := match k' with KALE => _ | _ => _ end).
  assert (EE : es' = rmap (option_map (map (pick sel))) es).
  { subst es es'. destruct KK as [(-> & ->)|[(-> & ->)|(G & G' & -> & -> & _)]]; [reflexivity| |]; (destruct E as [E|]; cbn [option_map]; [|reflexivity]);
      rewrite select_pick; destruct (select_rows E idx); reflexivity. }
  rewrite EE. destruct es as [E0|e]; cbn [rmap bind]; [|reflexivity]. clear EE es'.
  set (d := mkData (dt X) (dim X) Y). change (mkData (dt X) (length sel) (map (pick sel) Y)) with (pick_data sel d).
  destruct (limits_pick sel (dim X) d ND IN NE eq_refl) as (LP & LL).
  assert (AA : (exists e, (match al with Some p => Ok p | None => axis_limits_from_data d end) = Raise e /\ (match al' with Some p => Ok p | None => axis_limits_from_data (pick_data sel d) end) = Raise e) \/
    exists mins maxs, length mins = dim X /\ length maxs = dim X /\ (match al with Some p => Ok p | None => axis_limits_from_data d end) = Ok (mins, maxs) /\
      (match al' with Some p => Ok p | None => axis_limits_from_data (pick_data sel d) end) = Ok (pick sel mins, pick sel maxs)).
  { destruct al as [(mins, maxs)|], al' as [(mins', maxs')|]; cbn [reduced_limits] in AL; try contradiction.
    - destruct AL as (L1 & L2 & -> & ->). right. exists mins, maxs. auto.
    - rewrite LP. destruct (axis_limits_from_data d) as [(mins, maxs)|e]; [|left; exists e; split; reflexivity]. right. exists mins, maxs. destruct (LL mins maxs eq_refl). auto. }
  destruct AA as [(e & A1 & A2)|(mins & maxs & L1 & L2 & A1 & A2)]; rewrite A1, A2; cbn [bind]; [try reflexivity|].
  intros rt ks j xs het cv HK Hj. change (mkSt E0 _ _ _) with (fresh E0). change (mkSt (option_map (map (pick sel)) E0) _ _ _) with (fresh (option_map (map (pick sel)) E0)).
  apply (seen_answers sel (dim X) ND IN); auto.
  - unfold default_method, method_allowed. cbn [c_kind]. destruct KK as [(-> & ->)|[(-> & ->)|(G & G' & -> & -> & _)]]; auto.
  - intros i mth Hi. unfold ALEHist.pfit, fit_feature. cbn [c_kind fresh st_eff].
    destruct KK as [(-> & ->)|[(-> & ->)|(G & G' & -> & -> & JJ)]]; cbn [snd].
    + symmetry. now apply (ale_fit_pick sel (dim X) ND IN g g' GG).
    + assert (RF : forall e, rhale_fit_feature (mkCfg (KRHALE None) (pick_data sel d) (map g') (pick sel mins) (pick sel maxs)) (map (pick sel) e) i mth = rhale_fit_feature (mkCfg (KRHALE None) d (map g) mins maxs) e (old sel i) mth).
      { intros e. now apply (rhale_fit_pick sel (dim X) IN). }
      destruct E0 as [e|]; cbn [option_map snd]; [now rewrite RF|]. unfold compile. cbn [c_data c_model].
      rewrite (numerical_pick sel (dim X) ND IN g g' GG (mkCfg (KRHALE None) d (map g) mins maxs) (mkCfg (KRHALE None) (pick_data sel d) (map g') (pick sel mins) (pick sel maxs))) by (auto; intros Z; apply length_zero_iff_nil in Z; contradiction).
      cbn [c_data]. destruct (compute_jacobian_numerically (map g) d EPS) as [e|e]; unfold rmap; cbn [bind snd]; [now rewrite RF|reflexivity].
    + assert (RF : forall e, rhale_fit_feature (mkCfg (KRHALE (Some (map G'))) (pick_data sel d) (map g') (pick sel mins) (pick sel maxs)) (map (pick sel) e) i mth = rhale_fit_feature (mkCfg (KRHALE (Some (map G))) d (map g) mins maxs) e (old sel i) mth).
      { intros e. now apply (rhale_fit_pick sel (dim X) IN). }
      destruct E0 as [e|]; cbn [option_map snd]; [now rewrite RF|]. unfold compile. cbn [c_data rows pick_data d snd].
      rewrite <- RF. f_equal. rewrite !map_map. apply map_ext_in. intros r I. symmetry. apply JJ. eapply Forall_forall in QY; eauto.
Qed.
Print Assumptions C90_ale.

Definition pkinds (sel : list nat) (D : nat) (k k' : pkind) : Prop :=
  (k = KPDP /\ k' = KPDP) \/ (k = KDer None /\ k' = KDer None) \/
  exists G G', k = KDer (Some (map G)) /\ k' = KDer (Some (map G')) /\ reads_columns_jac sel D G G'.
Theorem C90_pdp : forall choice sel X k k' g g' nof al al',
  wf_data X -> columns sel (dim X) -> reads_columns sel (dim X) g g' -> pkinds sel (dim X) k k' -> reduced_limits sel (dim X) al al' ->
  match pconstruct choice k X (map g) nof al, pconstruct choice k' (pick_data sel X) (map g') nof al' with
  | Ok (c, st), Ok (c', st') => forall rt ks j xs het cv all vec, Forall (pnames_known sel) ks -> (j < length sel)%nat ->
      snd (peval c' rt (prun c' rt st' ks) j xs het cv all vec) = snd (peval c rt (prun c rt st (map (rename_pcall sel) ks)) (old sel j) xs het cv all vec)
  | Raise e, Raise e' => e = e'
  | _, _ => False
  end.
Proof.
  intros choice sel X k k' g g' nof al al' WF (NE & ND & IN) GG KK AL. unfold pconstruct. cbn [rows pick_data dt dim]. rewrite map_length.
  assert (Q : square (dim X) (rows X)) by (apply Forall_forall, WF).
  destruct (prep_nof_instances choice nof (length (rows X))) as [(m & idx)|e]; cbn [bind]; [|reflexivity].
  rewrite select_pick. destruct (select_rows (rows X) idx) as [Y|e] eqn:EY; cbn [rmap bind]; [|reflexivity].
  pose proof (select_square _ _ _ _ Q EY) as QY.
  set (d := mkData (dt X) (dim X) Y). change (mkData (dt X) (length sel) (map (pick sel) Y)) with (pick_data sel d).
  destruct (limits_pick sel (dim X) d ND IN NE eq_refl) as (LP & LL).
  assert (AA : (exists e, (match al with Some p => Ok p | None => axis_limits_from_data d end) = Raise e /\ (match al' with Some p => Ok p | None => axis_limits_from_data (pick_data sel d) end) = Raise e) \/
    exists mins maxs, length mins = dim X /\ length maxs = dim X /\ (match al with Some p => Ok p | None => axis_limits_from_data d end) = Ok (mins, maxs) /\
      (match al' with Some p => Ok p | None => axis_limits_from_data (pick_data sel d) end) = Ok (pick sel mins, pick sel maxs)).
  { destruct al as [(mins, maxs)|], al' as [(mins', maxs')|]; cbn [reduced_limits] in AL; try contradiction.
    - destruct AL as (L1 & L2 & -> & ->). right. exists mins, maxs. auto.
    - rewrite LP. destruct (axis_limits_from_data d) as [(mins, maxs)|e]; [|left; exists e; split; reflexivity]. right. exists mins, maxs. destruct (LL mins maxs eq_refl). auto. }
  destruct AA as [(e & A1 & A2)|(mins & maxs & L1 & L2 & A1 & A2)]; rewrite A1, A2; cbn [bind]; [try reflexivity|].
  intros rt ks j xs het cv all vec HK Hj.
  apply (pseen_answers sel (dim X) ND IN (mkPC k (map g) mins maxs) (mkPC k' (map g') (pick sel mins) (pick sel maxs))); auto.
  unfold same_pkind. cbn [p_model p_kind]. destruct KK as [K|[K|(G & G' & K1 & K2 & JJ)]]; [left|left|right]; [exists g, g'; auto..|exists G, G'; auto].
Qed.
Print Assumptions C90_pdp.

(** A reduced model exists exactly when the model reads no other column; in particular for every model when the columns are only reordered. *)
Fixpoint position_of (s : nat) (sel : list nat) : nat :=
  match sel with [] => 0%nat | t :: l => if Nat.eqb s t then 0%nat else Datatypes.S (position_of s l) end.
Definition widen (sel : list nat) (D : nat) (r : list Qc) : list Qc := map (fun s => r@(position_of s sel)) (seq 0 D).
Lemma position_old sel s : In s sel -> (position_of s sel < length sel)%nat /\ old sel (position_of s sel) = s.
Proof.
  unfold old. induction sel as [|t l IH]; intros H; [contradiction|]. cbn [position_of length]. destruct (Nat.eqb_spec s t) as [->|N]; [split; [lia|reflexivity]|].
  destruct H as [->|H]; [contradiction|]. destruct (IH H) as (A & B). split; [lia|exact B].
Qed.
Theorem C90_models : forall sel D (g : list Qc -> Qc), (forall s, In s sel -> (s < D)%nat) ->
  ((exists g', reads_columns sel D g g') <-> (forall r r', length r = D -> length r' = D -> (forall s, In s sel -> r@s = r'@s) -> g r = g r')) /\
  (Permutation sel (seq 0 D) -> reads_columns sel D g (fun r => g (widen sel D r))).
Proof.
  intros sel D g IN.
  assert (W : forall r, length r = D -> length (widen sel D (pick sel r)) = D /\ forall s, In s sel -> (widen sel D (pick sel r))@s = r@s).
  { intros r L. unfold widen. split; [now rewrite map_length, seq_length|]. intros s I. rewrite (nth_map_in _ _ _ 0%nat) by (rewrite seq_length; now apply IN). rewrite seq_nth by now apply IN.
    destruct (position_old sel s I) as (A & B). simpl (0 + s)%nat. rewrite pick_nth by exact A. now rewrite B. }
  split; [split|].
  - intros (g' & H) r r' L L' A. rewrite <- (H r L), <- (H r' L'). f_equal. unfold pick. now apply map_ext_in.
  - intros H. exists (fun r => g (widen sel D r)). intros r L. destruct (W r L) as (A & B). now apply H.
  - intros P r L. f_equal. destruct (W r L) as (A & B). apply (nth_ext _ _ 0 0); [lia|]. intros i Hi. apply B. symmetry in P. apply (Permutation_in _ P). apply in_seq. lia.
Qed.
Print Assumptions C90_models.

(** An instance: three columns, the model reads the first and the third; the second table holds the third and the first. *)
Definition ex90X := mkData Float64 3 [qs [0; 5; 1]; qs [2; 5; 3]; qs [1; 7; 4]; qs [3; 7; 6]; qs [4; 9; 2]; qs [2; 9; 0]].
Definition ex90g (r : list Qc) := r@0 * r@2 + r@2.
Definition ex90g' (r : list Qc) := r@1 * r@0 + r@0.
Definition ex90sel := [2; 0]%nat.
Definition ex90cfg := fst (match construct (fun _ _ => []) KALE (pick_data ex90sel ex90X) (map ex90g') (PyStr "all") None None with Ok p => p | Raise _ => (mkCfg KALE ex90X (map ex90g) [] [], fresh None) end).
Example C90_instance : wf_data ex90X /\ columns ex90sel 3 /\ reads_columns ex90sel 3 ex90g ex90g' /\
  (exists y, snd (eval ex90cfg (fun v => v) (run ex90cfg (fun v => v) (fresh None) [CallFit [0; 1]%nat (MFixed 2 (Some 0%nat) 2) (PyBool true)]) 1 (qs [0; 1; 2]) false (PyBool true)) = Ok (y, None) /\ length y = 3%nat).
Proof.
  split; [intros r [<-|[<-|[<-|[<-|[<-|[<-|[]]]]]]]; reflexivity|]. split.
  { split; [discriminate|]. split; [repeat constructor; simpl; intuition congruence|]. intros s [<-|[<-|[]]]; lia. }
  split; [intros r L; unfold ex90g, ex90g', ex90sel, pick; cbn [map nth]; reflexivity|].
  vm_compute. eexists. split; reflexivity.
Qed.
