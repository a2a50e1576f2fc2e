(** Properties C48, C49, C63, C64: the regional classes (regional_effect*.py). [region] and [region_effects] are in
    PartSpec.v; [global_effect] and [kept_entirely] are at the top of RegNodes.v. *)
From Verif Require Import Base Numpy Spec NumpyFacts Utils Helpers HelpersProofs Binning GlobalALE ALEState GlobalPDP GlobalShap
  PartSpec Partition PartProofs PartSearch PartTree PartFacts PartNodes Regional RegProofs RegNodes.
Open Scope Qc_scope.
Open Scope list_scope.

(** ** Objects for the examples: the square root is the identity, random samples are the first rows. *)
Definition ex_x : externals := mkX (fun v => v) (fun _ n => seq 0 n) (fun _ => Raise ValueError) (fun l => seq 0 (length l)) (fun _ _ => Raise ValueError) (fun _ => ""%string).
Definition ex_model (Z : Mat) : list Qc := map (fun r => r@0 * r@1) Z.
Definition ex_rows (n : nat) : Mat := map (fun i => [qn i; qn (Nat.modulo (i * i) 3)]) (seq 0 n).
Definition ex_obj (k : rkind) (n : nat) : res rconfig :=
  rconstruct ex_x k (mkData Float64 2 (ex_rows n)) ex_model None (PyStr "all") None None 4 None.
Definition ex_opts (drop : Qc) (depth minpts : nat) : fitopts :=
  mkFO drop (Q2Qc (1 # 10)) depth 3 minpts AllFeatures false (MStr "fixed") (PyBool false) (PyStr "all") (PyInt 5) true.
Definition shown (r : res gout) :=
  rmap (fun g => match g with
                 | GCurve y h => (map (fun v => Some (this v)) y, option_map (map (fun v => Some (this v))) h)
                 | GPdp (OMean y) => (map (option_map this) y, None)
                 | GPdp (OMeanStd y s) => (map (option_map this) y, Some (map (option_map this) s))
                 | GPdp (OAll _) => ([], None) end) r.
Definition ex_rows3 : Mat := flat_map (fun v => flat_map (fun a => flat_map (fun b => [[qz v; qz a; qz b]; [qz v; qz a; qz b]]) [0; 1]%Z) [0; 1]%Z) [0; 1]%Z.
Definition ex_model3 (Z : Mat) : list Qc := map (fun r => r@0 * (Q2Qc 3 * r@1 + r@2)) Z.
Definition ex_jac3 (Z : Mat) : Mat := map (fun r => [Q2Qc 3 * r@1 + r@2; Q2Qc 3 * r@0; r@0]) Z.
Definition ex_rhale : res rconfig :=
  rconstruct ex_x (RRHALE (Some ex_jac3)) (mkData Float64 3 ex_rows3) ex_model3 None (PyStr "all") None (Some [Cont; Cat; Cat]) 4 None.
Definition ex_opts3 : fitopts := mkFO (Q2Qc (1#10)) (Q2Qc (1 # 10)) 2 3 2 AllFeatures false (MFixed 2 (Some 0%nat) 15) (PyBool false) (PyStr "all") (PyInt 5) true.
Ltac computed := vm_compute; reflexivity.
(** The object itself (the alternative is not reached). *)
Definition ex_get (r : res rconfig) : rconfig :=
  match r with Ok c => c | Raise _ => mkRC RPDP (mkData Float64 0 []) ex_model None [] [] [] 0 [] 0 end.
Definition ex_c (n : nat) : rconfig := ex_get (ex_obj RPDP n).
Lemma is_ok_exists {A} (r : res A) : (match r with Ok _ => true | Raise _ => false end) = true -> exists a, r = Ok a.
Proof. destruct r as [a|]; intros H; [now exists a|discriminate]. Qed.
Definition raises_of {A} (r : res A) : option exn := match r with Ok _ => None | Raise e => Some e end.
Lemma raises_is {A} (r : res A) e : raises_of r = Some e -> r = Raise e.
Proof. destruct r; simpl; congruence. Qed.

(** * C48  Regional eval/plot use the latest fit *)
(** Any history [ks1], then a fit that includes [f] and succeeds, then any history [ks2] without a fit of [f]: every
    node of [f] evaluates as on a fresh object on which only that last fit was made. Guard: no plot of [f] with
    scale_x_list in [ks1]. *)
Theorem C48_latest_partial : forall x c ks1 fs o ks2 f node_idx xs het cv, In f fs ->
  Forall (fun k => ~ scaled_plot f k) ks1 -> Forall (fun k => ~ fits f k) ks2 ->
  snd (rfit x c (qrun x c qfresh ks1) fs o) = Ok tt ->
  snd (reval x c (qrun x c qfresh (ks1 ++ QFit fs o :: ks2)) f node_idx xs het cv) =
  snd (reval x c (fst (rfit x c qfresh [f] o)) f node_idx xs het cv).
Proof. exact eval_latest. Qed.
Print Assumptions C48_latest_partial.
(** A feature that no call of the history names is evaluated as on a fresh object (it is fitted on demand). *)
Theorem C48_first : forall x c ks f node_idx xs het cv, Forall (fun k => ~ touches f k) ks ->
  snd (reval x c (qrun x c qfresh ks) f node_idx xs het cv) = snd (reval x c qfresh f node_idx xs het cv).
Proof. exact eval_first. Qed.
Print Assumptions C48_first.
(** Without the guard: a plot with scale_x_list stores the tree of the fit in force; a later fit does not remove it, and
    eval goes on reading it. Here the second fit prunes everything, so node 1 no longer exists, but is evaluated. *)
Theorem C48_refuted : exists x c o1 o2 scale xs y,
  let ks := [QFit [0%nat] o1; QPlot 0 0 xs false (PyBool false) (Some scale)] in
  snd (rfit x c (qrun x c qfresh ks) [0%nat] o2) = Ok tt /\
  snd (reval x c (qrun x c qfresh (ks ++ [QFit [0%nat] o2])) 0 1 xs false (PyBool false)) = Ok y /\
  snd (reval x c (fst (rfit x c qfresh [0%nat] o2)) 0 1 xs false (PyBool false)) = Raise AssertionError.
Proof.
  exists ex_x, (ex_c 8), (ex_opts (Q2Qc (1#10)) 1 2), (ex_opts (Q2Qc 2) 1 2), [(0, 1); (0, 1)], (qs [1]). cbv zeta.
  match goal with |- exists y, _ /\ ?r = Ok y /\ _ => destruct (is_ok_exists r ltac:(computed)) as [y Hy]; exists y end.
  split; [computed|]. split; [exact Hy|apply raises_is; computed].
Qed.
Print Assumptions C48_refuted.
(** The first fit finds no split (too few instances), a scaled plot fails but leaves an empty scaled tree behind: after a
    second fit that finds splits every eval of the feature raises AttributeError. *)
Theorem C48_none_refuted : exists x c o1 o2 scale xs y,
  let ks := [QFit [0%nat] o1; QPlot 0 0 xs false (PyBool false) (Some scale)] in
  snd (rfit x c (qrun x c qfresh ks) [0%nat] o2) = Ok tt /\
  snd (reval x c (fst (rfit x c qfresh [0%nat] o2)) 0 0 xs false (PyBool false)) = Ok y /\
  snd (reval x c (qrun x c qfresh (ks ++ [QFit [0%nat] o2])) 0 0 xs false (PyBool false)) = Raise AttributeError.
Proof.
  exists ex_x, (ex_c 8), (ex_opts (Q2Qc (1#10)) 1 10), (ex_opts (Q2Qc (1#10)) 1 2), [(0, 1); (0, 1)], (qs [1]). cbv zeta.
  match goal with |- exists y, _ /\ ?r = Ok y /\ _ => destruct (is_ok_exists r ltac:(computed)) as [y Hy]; exists y end.
  split; [computed|]. split; [exact Hy|apply raises_is; computed].
Qed.
Print Assumptions C48_none_refuted.
(** The guard of C48_latest_partial admits scaled plots after the last fit, and other calls before. *)
Example C48_instance : let c := ex_c 8 in
  let ks1 := [QFit [0%nat] (ex_opts (Q2Qc 2) 1 2); QEval 0 0 (qs [1]) false (PyBool false)] in
  let ks2 := [QPlot 0 1 (qs [1]) false (PyBool false) (Some [(1, Q2Qc 2); (0, 1)])] in
  let o := ex_opts (Q2Qc (1#10)) 1 2 in
  Forall (fun k => ~ scaled_plot 0 k) ks1 /\ Forall (fun k => ~ fits 0 k) ks2 /\ snd (rfit ex_x c (qrun ex_x c qfresh ks1) [0%nat] o) = Ok tt /\
  shown (snd (reval ex_x c (qrun ex_x c qfresh (ks1 ++ QFit [0%nat] o :: ks2)) 0 2 (qs [1; 3]) true (PyBool false))) = Ok ([Some 1; Some 3], Some [Some 0; Some 0])%Q.
Proof.
  cbv zeta.
  split; [repeat constructor; simpl; intros []|]. split; [repeat constructor; simpl; intros []|]. split; computed.
Qed.

(** * C49  Regional eval is the global effect of the node's instances *)
(** The state [latest]: reached by any history as in C48 (guarded by it). [cs] are the conditions of the important splits of
    the partition found by the last fit; node number 2^l - 1 + j is the j-th subregion of level l. *)
Theorem C49_nodes_partial : forall x c ks1 fs o ks2 f xs het cv ce g r ss imp, wf_reg c -> In f fs ->
  Forall (fun k => ~ scaled_plot f k) ks1 -> Forall (fun k => ~ fits f k) ks2 ->
  snd (rfit x c (qrun x c qfresh ks1) fs o) = Ok tt ->
  partition_of x c f o = Ok (g, Some (r, ss), imp) -> prep_centering cv = Ok ce ->
  let st := qrun x c qfresh (ks1 ++ QFit fs o :: ks2) in
  let X := rows (q_data c) in let cs := conditions imp in
  (forall l j, (l <= length imp)%nat -> (j < 2 ^ l)%nat -> (q_effects c = None \/ (l <= 1)%nat) ->
     let p := nth j (paths l) [] in
     kept_entirely (q_kind c) (length (region X cs p)) ->
     snd (reval x c st f (2 ^ l - 1 + j) xs het cv) =
       global_effect x (q_kind c) (as_data c (region X cs p)) (q_model c)
         (option_map (fun e => region_effects X e cs p) (q_effects c)) (PyStr "all") f xs het cv) /\
  (forall node_idx, (2 ^ S (length imp) - 1 <= node_idx)%nat -> snd (reval x c st f node_idx xs het cv) = Raise AssertionError).
Proof.
  intros x c ks1 fs o ks2 f xs het cv ce g r ss imp W HI N1 N2 HF HP HC st X cs.
  destruct (rfit x c (qrun x c qfresh ks1) fs o) as [st1 [[]|e]] eqn:E; [|discriminate].
  assert (SC : qs_pruned_scaled (qrun x c qfresh ks1) f = None) by now rewrite qrun_scaled.
  destruct (rfit_ok x c fs o f _ _ HI E SC) as (p' & t & P & C & _ & Hf & Hm). rewrite HP in P. injection P as <-.
  assert (C2 : current x st f (g, Some (r, ss), imp) t).
  { unfold st, qrun. rewrite fold_left_app. simpl. change (fold_left (qstep x c) ks1 qfresh) with (qrun x c qfresh ks1). rewrite E. simpl. now apply qrun_current. }
  pose proof C2 as (_ & _ & _ & T & _).
  split.
  - intros l j Hl Hj HE p HK. rewrite (current_eval x c st f _ t _ xs het cv Hf C2). simpl snd.
    destruct (eval_nodes x c f o g r ss imp (2 ^ l - 1 + j) xs het cv W Hf HP t T) as [H1 _]. rewrite (H1 l j ce Hl Hj eq_refl HC).
    rewrite (fe_eval_global x c _ _ f xs het cv ce HC HK). fold p. destruct l as [|[|l]]; [reflexivity|reflexivity|]. destruct HE as [-> | HE]; [reflexivity|lia].
  - intros k Hk. rewrite (current_eval x c st f _ t _ xs het cv Hf C2). simpl snd. destruct (eval_nodes x c f o g r ss imp k xs het cv W Hf HP t T) as [_ H2]. now apply H2.
Qed.
Print Assumptions C49_nodes_partial.
(** Node 0 is the whole (selected) dataset. *)
Theorem C49_root_partial : forall x c fs o f xs het cv ce g r ss imp, wf_reg c -> In f fs ->
  snd (rfit x c qfresh fs o) = Ok tt -> partition_of x c f o = Ok (g, Some (r, ss), imp) -> prep_centering cv = Ok ce ->
  kept_entirely (q_kind c) (length (rows (q_data c))) ->
  snd (reval x c (fst (rfit x c qfresh fs o)) f 0 xs het cv) =
    global_effect x (q_kind c) (q_data c) (q_model c) (q_effects c) (PyStr "all") f xs het cv.
Proof.
  intros x c fs o f xs het cv ce g r ss imp W HI HF HP HC HK.
  destruct (C49_nodes_partial x c [] fs o [] f xs het cv ce g r ss imp W HI ltac:(constructor) ltac:(constructor) HF HP HC) as [H _].
  assert (RG : forall cs, region (rows (q_data c)) cs [] = rows (q_data c)).
  { intros cs. unfold region. apply filter_every. intros a _. unfold inside. now rewrite combine_nil. }
  specialize (H 0%nat 0%nat ltac:(lia) ltac:(simpl; lia) ltac:(right; lia)). simpl nth in H. cbv zeta in H. rewrite RG in H. specialize (H HK).
  simpl in H. etransitivity; [exact H|]. f_equal.
  - unfold as_data. now destruct (q_data c).
  - destruct W as [WA _]. destruct (q_effects c) as [e|]; [|reflexivity]. simpl. f_equal. now apply region_effects_nil.
Qed.
Print Assumptions C49_root_partial.
(** When the search finds no split at all, no node exists, not even node 0. *)
Theorem C49_no_split : forall x c fs o f node_idx xs het cv g imp, In f fs -> snd (rfit x c qfresh fs o) = Ok tt ->
  partition_of x c f o = Ok (g, None, imp) -> snd (reval x c (fst (rfit x c qfresh fs o)) f node_idx xs het cv) = Raise AssertionError.
Proof.
  intros x c fs o f node_idx xs het cv g imp HI HF HP. destruct (rfit x c qfresh fs o) as [st1 [[]|e]] eqn:E; [|discriminate].
  destruct (rfit_ok x c fs o f _ _ HI E eq_refl) as (p' & t & P & C & _ & Hf & Hm). rewrite HP in P. injection P as <-. simpl fst.
  rewrite (current_eval x c st1 f _ t _ xs het cv Hf C). simpl snd. pose proof C as (_ & _ & _ & T & _). simpl in T. injection T as <-. unfold eval_in.
  destruct (prep_centering cv) as [ce|e] eqn:HC; [reflexivity|].
  destruct cv as [[]|s| | |]; simpl in HC; try discriminate; try (injection HC as <-; reflexivity). destruct (String.eqb s "zero_start" || String.eqb s "zero_integral")%bool; [discriminate|]. injection HC as <-. reflexivity.
Qed.
Print Assumptions C49_no_split.
(** Guard 1 is needed: the nodes of RegionalPDP and RegionalDerPDP are evaluated on at most 300 random instances (of
    RegionalShapDP: 100), because the node's object is built with the default nof_instances. *)
Theorem C49_subsample_refuted : exists x c o g r ss imp y1 y2, q_kind c = RPDP /\ wf_reg c /\ partition_of x c 0 o = Ok (g, Some (r, ss), imp) /\
  shown (snd (reval x c (fst (rfit x c qfresh [0%nat] o)) 0 0 (qs [1]) false (PyBool false))) = Ok y1 /\
  shown (global_effect x RPDP (q_data c) (q_model c) None (PyStr "all") 0 (qs [1]) false (PyBool false)) = Ok y2 /\ y1 <> y2.
Proof.
  assert (HP : exists g r ss imp, partition_of ex_x (ex_c 301) 0 (ex_opts (Q2Qc (1#10)) 1 2) = Ok (g, Some (r, ss), imp)).
  { assert (B : match partition_of ex_x (ex_c 301) 0 (ex_opts (Q2Qc (1#10)) 1 2) with Ok (_, Some _, _) => true | _ => false end = true) by computed.
    destruct (partition_of _ _ _ _) as [[[g [[r ss]|]] imp]|]; try discriminate. now exists g, r, ss, imp. }
  destruct HP as (g & r & ss & imp & HP).
  exists ex_x, (ex_c 301), (ex_opts (Q2Qc (1#10)) 1 2), g, r, ss, imp. eexists _, _.
  split; [computed|]. split.
  { assert (B1 : q_effects (ex_c 301) = None) by computed. split; [rewrite B1; exact I|]. apply Nat.leb_le. computed. }
  split; [exact HP|]. split; [computed|]. split; [computed|]. discriminate.
Qed.
Print Assumptions C49_subsample_refuted.
(** Guard 2 is needed: from level 2 on the nodes of RegionalRHALE carry the data of the instances where their effects
    should be (C41), and these "effects" are what eval accumulates. *)
Theorem C49_effects_refuted : exists x c o g r ss imp y1 y2 e, (exists jac, q_kind c = RRHALE jac) /\ wf_reg c /\ q_effects c = Some e /\
  partition_of x c 0 o = Ok (g, Some (r, ss), imp) /\ length imp = 2%nat /\
  let X := rows (q_data c) in let p := nth 1 (paths 2) [] in
  shown (snd (reval x c (fst (rfit x c qfresh [0%nat] o)) 0 4 (qs [0; 1]) false (PyBool false))) = Ok y1 /\
  shown (global_effect x (q_kind c) (as_data c (region X (conditions imp) p)) (q_model c)
           (Some (region_effects X e (conditions imp) p)) (PyStr "all") 0 (qs [0; 1]) false (PyBool false)) = Ok y2 /\ y1 <> y2.
Proof.
  set (c := ex_get ex_rhale).
  assert (HP : exists g r ss imp, partition_of ex_x c 0 ex_opts3 = Ok (g, Some (r, ss), imp)).
  { assert (B : match partition_of ex_x c 0 ex_opts3 with Ok (_, Some _, _) => true | _ => false end = true) by computed.
    destruct (partition_of _ _ _ _) as [[[g [[r ss]|]] imp]|]; try discriminate. now exists g, r, ss, imp. }
  destruct HP as (g & r & ss & imp & HP).
  assert (HE : exists e, q_effects c = Some e).
  { assert (B : match q_effects c with Some _ => true | None => false end = true) by computed. destruct (q_effects c) as [e|]; [now exists e|discriminate]. }
  destruct HE as [e HE].
  assert (IM : imp = match partition_of ex_x c 0 ex_opts3 with Ok (_, _, i) => i | _ => [] end) by now rewrite HP.
  assert (EM : e = match q_effects c with Some a => a | None => [] end) by now rewrite HE.
  exists ex_x, c, ex_opts3, g, r, ss, imp. eexists _, _. exists e. split; [exists (Some ex_jac3); reflexivity|]. split.
  { split; [rewrite HE; simpl; rewrite EM; apply Nat.eqb_eq; computed|apply Nat.leb_le; computed]. }
  split; [exact HE|]. split; [exact HP|]. split; [rewrite IM; computed|]. clear HP HE. cbv zeta. rewrite IM, EM. clear. split; [computed|]. split; [computed|]. discriminate.
Qed.
Print Assumptions C49_effects_refuted.
(** The hypotheses of C49_nodes_partial are met (with splits, and at every level) by the objects of the examples. *)
Example C49_instance : exists g r ss imp, let c := ex_get ex_rhale in wf_reg c /\ snd (rfit ex_x c qfresh [0%nat] ex_opts3) = Ok tt /\
  partition_of ex_x c 0 ex_opts3 = Ok (g, Some (r, ss), imp) /\ length imp = 2%nat /\ kept_entirely (q_kind c) 16 /\
  map (fun k => shown (snd (reval ex_x c (fst (rfit ex_x c qfresh [0%nat] ex_opts3)) 0 k (qs [0; 1]) false (PyBool false)))) [0; 1; 2]%nat =
  map (fun l => Ok (map Some l, None)) [[1; 3]; [1#4; 3#4]; [7#4; 21#4]]%Q.
Proof.
  set (c := ex_get ex_rhale).
  assert (HP : exists g r ss imp, partition_of ex_x c 0 ex_opts3 = Ok (g, Some (r, ss), imp)).
  { assert (B : match partition_of ex_x c 0 ex_opts3 with Ok (_, Some _, _) => true | _ => false end = true) by computed.
    destruct (partition_of _ _ _ _) as [[[g [[r ss]|]] imp]|]; try discriminate. now exists g, r, ss, imp. }
  destruct HP as (g & r & ss & imp & HP).
  assert (IM : imp = match partition_of ex_x c 0 ex_opts3 with Ok (_, _, i) => i | _ => [] end) by now rewrite HP.
  exists g, r, ss, imp. cbv zeta. split.
  { split; [apply Nat.eqb_eq; computed|apply Nat.leb_le; computed]. }
  split; [computed|]. split; [exact HP|]. split; [rewrite IM; computed|]. split; [exact I|]. computed.
Qed.
